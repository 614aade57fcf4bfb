(** * Props_Nx: who wins when several goroutines HSetNX one field (C201) *)
From stdpp Require Import relations.
From Verif Require Import Base GoFloat CacheModel CacheSpec CacheAbs CacheRefine CacheRefineH CacheMain CacheLib CacheConc ConcLin ConcSafe ConcDl ConcHash ConcLen.
From Verif Require Import Props_String Props_Counter Props_Hash Props_Conc Props_Conc4 Props_Conc5 Props_Lost Props_Born.

(** Goroutine i calls HSetNX with the i-th value, once, and is told the i-th number; [i] is the number of the first goroutine. *)
Fixpoint nxs (k f : gostr) (i : nat) (ys : list (gostr * Z)) : list event :=
  match ys with
  | [] => []
  | (v, b) :: r => EInv i (CHSetNX k f v) :: ERet i (RInt (b, None)) :: nxs k f (S i) r
  end.
Fixpoint nums {A} (i : nat) (l : list A) : list (nat * A) := match l with [] => [] | x :: r => (i, x) :: nums (S i) r end.
Definition pnx (k f : gostr) (l : list (nat * (gostr * Z))) : list event :=
  concat (map (fun x => [EInv (fst x) (CHSetNX k f (fst (snd x))); ERet (fst x) (RInt (snd (snd x), None))]) l).
Lemma nxs_nums k f ys : forall i, nxs k f i ys = pnx k f (nums i ys).
Proof. induction ys as [|[v b] r IH]; intros i; [reflexivity|]. cbn. rewrite IH. reflexivity. Qed.
Lemma pnx_perm k f l l' : l ≡ₚ l' -> pnx k f l ≡ₚ pnx k f l'.
Proof. intros P. unfold pnx. induction P; cbn; [reflexivity|rewrite IHP; reflexivity|solve_Permutation|etransitivity; eassumption]. Qed.
Lemma pnx_app k f l l' : pnx k f (l ++ l') = pnx k f l ++ pnx k f l'.
Proof. unfold pnx. rewrite map_app, concat_app. reflexivity. Qed.
Lemma nums_fst {A} (l : list A) : forall i, map fst (nums i l) = seq i (length l).
Proof. induction l as [|x r IH]; intros i; [reflexivity|]. cbn. rewrite IH. reflexivity. Qed.
Lemma nums_snd {A} (l : list A) : forall i, map snd (nums i l) = l.
Proof. induction l as [|x r IH]; intros i; [reflexivity|]. cbn. rewrite IH. reflexivity. Qed.

Section nx.
Context (k f : gostr) (e : gmap gostr Z) (Hek : e !! k = None).
Definition nx_los (l : positive) (v : gostr) : prog (gret Z) :=
  do r <- h_load_or_store l f (VStr v); if snd r then Ret (0, None) else do len <- h_get_len l; h_set_len l (wrap64 (len + 1));;; Ret (1, None).
Definition nx_rest (v : gostr) (h : hres) : prog (gret Z) :=
  match h with HWrong => Ret (0, Some ErrWrongType) | _ => do l <- get_or_new k h; nx_los l v end.
Definition n1 (v : gostr) : prog reply := call_prog (CHSetNX k f v).
Definition n2 (l : positive) (v : gostr) : prog reply :=
  pmap RInt (do h <- (do x <- (do b <- expired k; Ret (if b then None else Some (VHash l))); Ret match x with None => HNil | Some (VHash l) => HEntry l | Some _ => HWrong end); nx_rest v h).
Definition n2' (v : gostr) : prog reply := pmap RInt (nx_rest v HNil).
Definition n2'' (l : positive) (v : gostr) : prog reply := pmap RInt (do l' <- (data_store k (VHash l);;; Ret l); nx_los l' v).
Definition n3 (l : positive) (v : gostr) : prog reply := pmap RInt (nx_los l v).
Definition n4 (l : positive) : prog reply := pmap RInt (do len <- h_get_len l; h_set_len l (wrap64 (len + 1));;; Ret (1, None)).
Definition n5 (l : positive) (n : Z) : prog reply := pmap RInt (h_set_len l (wrap64 (n + 1));;; Ret (1, None)).
Definition nr (z : Z) : prog reply := Ret (RInt (z, None)).
Lemma sn_none v w d : w_data w = Some d -> d !! k = None -> go1 (n1 v) w w (n2' v).
Proof. intros Hd Hk. eexists. split; [reflexivity|]. cbn. rewrite Hd, Hk. reflexivity. Qed.
Lemma sn_some v w d l : w_data w = Some d -> d !! k = Some (VHash l) -> go1 (n1 v) w w (n2 l v).
Proof. intros Hd Hk. eexists. split; [reflexivity|]. cbn. rewrite Hd, Hk. reflexivity. Qed.
Lemma sn_exp v w l : w_exp w = Some e -> go1 (n2 l v) w w (n3 l v).
Proof. intros He. eexists. split; [reflexivity|]. cbn. rewrite He, Hek. reflexivity. Qed.
Lemma sn_alloc v w : go1 (n2' v) w (grown w) (n2'' (w_next w) v).
Proof. eexists. split; reflexivity. Qed.
Lemma sn_store v w d l : w_data w = Some d -> go1 (n2'' l v) w (set_data w (<[k := VHash l]> d)) (n3 l v).
Proof. intros Hd. eexists. split; [reflexivity|]. cbn. rewrite Hd. reflexivity. Qed.
Lemma sn_win v w l o : w_heap w !! l = Some o -> h_map o !! f = None -> go1 (n3 l v) w (set_heap w (<[l := HObj (<[f := VStr v]> (h_map o)) (h_len o)]> (w_heap w))) (n4 l).
Proof. intros Ho Hf. eexists. split; [reflexivity|]. cbn. rewrite Ho. cbn. rewrite Hf. reflexivity. Qed.
Lemma sn_lose v w l o : w_heap w !! l = Some o -> is_Some (h_map o !! f) -> go1 (n3 l v) w w (nr 0).
Proof. intros Ho [y Hf]. eexists. split; [reflexivity|]. cbn. rewrite Ho. cbn. rewrite Hf. rewrite insert_id by exact Ho. destruct w; reflexivity. Qed.
Lemma sn_len w l o : w_heap w !! l = Some o -> go1 (n4 l) w w (n5 l (h_len o)).
Proof. intros Ho. eexists. split; [reflexivity|]. cbn -[wrap64]. rewrite Ho. cbn -[wrap64]. rewrite insert_id by exact Ho. destruct w; reflexivity. Qed.
Lemma sn_set w l o n : w_heap w !! l = Some o -> go1 (n5 l n) w (set_heap w (<[l := HObj (h_map o) (wrap64 (n + 1))]> (w_heap w))) (nr 1).
Proof. intros Ho. eexists. split; [reflexivity|]. cbn -[wrap64]. rewrite Ho. reflexivity. Qed.

(** ** the executions that exist *)
Definition has (w : world) (b : bool) : Prop :=
  exists d l o, w_data w = Some d /\ d !! k = Some (VHash l) /\ w_exp w = Some e /\ w_heap w !! l = Some o /\ (if b then is_Some (h_map o !! f) else h_map o !! f = None).
Lemma exec_win w th i v : has w false -> th !! i = None ->
  exists w', cexec ([AInv i (CHSetNX k f v)] ++ runs i 5 ++ [ARet i]) (Conf w th) = Some (Conf w' th, [EInv i (CHSetNX k f v); ERet i (RInt (1, None))]) /\ has w' true.
Proof.
  intros (d & l & o & Hd & Hk & He & Ho & Hf) Hi.
  pose proof (sn_win v w l o Ho Hf) as G3. set (w4 := set_heap w _) in G3.
  assert (H4 : w_heap w4 !! l = Some (HObj (<[f := VStr v]> (h_map o)) (h_len o))) by apply lookup_insert.
  pose proof (sn_set w4 l _ (h_len o) H4) as G5. set (w5 := set_heap w4 _) in G5.
  exists w5. split.
  - cbn [app runs repeat cexec]. unfold cstep at 1. cbn [c_th c_w]. rewrite Hi. change (call_prog (CHSetNX k f v)) with (n1 v).
    rewrite (go_run _ _ _ _ _ _ (sn_some v w d l Hd Hk)), (go_run _ _ _ _ _ _ (sn_exp v w l He)), (go_run _ _ _ _ _ _ G3), (go_run _ _ _ _ _ _ (sn_len w4 l _ H4)). cbn [h_len]. rewrite (go_run _ _ _ _ _ _ G5).
    unfold cstep. cbn [c_th c_w]. rewrite lookup_insert. unfold nr. rewrite delete_insert by exact Hi. reflexivity.
  - exists d, l. eexists. split; [exact Hd|]. split; [exact Hk|]. split; [exact He|]. split; [apply lookup_insert|]. cbn. rewrite lookup_insert. eauto.
Qed.
Fixpoint losing (l : list (nat * (gostr * Z))) : list act :=
  match l with [] => [] | (i, (v, _)) :: r => [AInv i (CHSetNX k f v)] ++ runs i 3 ++ [ARet i] ++ losing r end.
Lemma exec_losing l : forall w th, has w true -> (forall i, i ∈ map fst l -> th !! i = None) -> Forall (fun x => snd (snd x) = 0) l ->
  cexec (losing l) (Conf w th) = Some (Conf w th, pnx k f l).
Proof.
  induction l as [|[i [v b]] l IH]; intros w th Hh Hth Hb; [reflexivity|]. apply list.Forall_cons in Hb as [Hb0 Hb]. cbn in Hb0. subst b.
  assert (Hthi : th !! i = None) by (apply Hth; apply elem_of_list_here). pose proof Hh as (d & l1 & o & Hd & Hk & He & Ho & Hf).
  cbn [losing app runs repeat cexec]. unfold cstep at 1. cbn [c_th c_w]. rewrite Hthi. change (call_prog (CHSetNX k f v)) with (n1 v).
  rewrite (go_run _ _ _ _ _ _ (sn_some v w d l1 Hd Hk)), (go_run _ _ _ _ _ _ (sn_exp v w l1 He)), (go_run _ _ _ _ _ _ (sn_lose v w l1 o Ho Hf)).
  unfold cstep. cbn [c_th c_w]. rewrite lookup_insert. unfold nr. rewrite delete_insert by exact Hthi. rewrite IH; [reflexivity|exact Hh| |exact Hb]. intros j Hj. apply Hth, elem_of_list_further, Hj.
Qed.
(** all find the key missing before any of them stores its hash *)
Fixpoint winning (l : list (nat * (gostr * Z))) : list act :=
  match l with [] => [] | (i, (v, _)) :: r => [AInv i (CHSetNX k f v); ARun i] ++ winning r ++ runs i 5 ++ [ARet i] end.
Lemma exec_winning l : forall w th d, w_data w = Some d -> d !! k = None -> w_exp w = Some e -> NoDup (map fst l) -> (forall i, i ∈ map fst l -> th !! i = None) ->
  Forall (fun x => snd (snd x) = 1) l ->
  exists w' evs, cexec (winning l) (Conf w th) = Some (Conf w' th, evs) /\ evs ≡ₚ pnx k f l /\ (exists d', w_data w' = Some d') /\ w_exp w' = Some e /\ (l <> [] -> has w' true).
Proof.
  induction l as [|[i [v b]] l IH]; intros w th d Hd Hk He Hn Hth Hb; [exists w, []; repeat split; eauto; congruence|]. cbn [map fst] in Hn. apply list.NoDup_cons in Hn as [Hi Hn].
  apply list.Forall_cons in Hb as [Hb0 Hb]. cbn in Hb0. subst b.
  assert (Hthi : th !! i = None) by (apply Hth; apply elem_of_list_here).
  destruct (IH w (<[i := n2' v]> th) d Hd Hk He Hn) as (w1 & evs & E & P & [d1 Hd1] & He1 & _); [|exact Hb|].
  { intros j Hj. rewrite lookup_insert_ne by congruence. apply Hth. apply elem_of_list_further, Hj. }
  set (l1 := w_next w1). set (w2 := grown w1). set (w3 := set_data w2 (<[k := VHash l1]> d1)).
  assert (H3 : w_heap w3 !! l1 = Some (HObj ∅ 0)) by apply lookup_insert.
  pose proof (sn_win v w3 l1 _ H3 (lookup_empty _)) as G3. set (w4 := set_heap w3 _) in G3.
  assert (H4 : w_heap w4 !! l1 = Some (HObj (<[f := VStr v]> ∅) 0)) by apply lookup_insert.
  pose proof (sn_set w4 l1 _ 0 H4) as G5. set (w5 := set_heap w4 _) in G5.
  exists w5, ([EInv i (CHSetNX k f v)] ++ evs ++ [ERet i (RInt (1, None))]). split; [|split; [|split; [|split]]].
  - cbn [winning]. rewrite cexec_app. assert (E1 : cexec [AInv i (CHSetNX k f v); ARun i] (Conf w th) = Some (Conf w (<[i := n2' v]> th), [EInv i (CHSetNX k f v)])).
    { cbn [cexec]. unfold cstep at 1. cbn [c_th c_w]. rewrite Hthi. change (call_prog (CHSetNX k f v)) with (n1 v). rewrite (go_run _ _ _ _ _ _ (sn_none v w d Hd Hk)). reflexivity. }
    rewrite E1. clear E1. rewrite cexec_app, E. cbn [runs repeat app cexec].
    rewrite (go_run _ _ _ _ _ _ (sn_alloc v w1)), (go_run _ _ _ _ _ _ (sn_store v (grown w1) d1 (w_next w1) Hd1)). fold l1 w2 w3.
    rewrite (go_run _ _ _ _ _ _ G3), (go_run _ _ _ _ _ _ (sn_len w4 l1 _ H4)). cbn [h_len]. rewrite (go_run _ _ _ _ _ _ G5). unfold cstep. cbn [c_th c_w]. rewrite lookup_insert. unfold nr. rewrite delete_insert by exact Hthi. reflexivity.
  - unfold pnx in *. cbn. rewrite P. apply perm_skip. rewrite Permutation_app_comm. reflexivity.
  - eexists. reflexivity.
  - exact He1.
  - intros _. exists (<[k := VHash l1]> d1), l1. eexists. split; [reflexivity|]. split; [apply lookup_insert|]. split; [exact He1|]. split; [apply lookup_insert|]. cbn. rewrite lookup_insert. eauto.
Qed.

(** ** no others *)
Inductive nst := S0 | S1 | S2' | S2'' (l : positive) | S2 (l : positive) | S3 (l : positive) | S4 (l : positive) | S5 (l : positive) (n : Z) | S6 (z : Z) | S7 (z : Z).
Definition nprog (v : gostr) (s : nst) : option (prog reply) :=
  match s with
  | S0 | S7 _ => None | S1 => Some (n1 v) | S2' => Some (n2' v) | S2'' l => Some (n2'' l v) | S2 l => Some (n2 l v) | S3 l => Some (n3 l v)
  | S4 l => Some (n4 l) | S5 l n => Some (n5 l n) | S6 z => Some (nr z)
  end.
Definition won (s : nst) : Prop := match s with S4 _ | S5 _ _ => True | S6 z | S7 z => z = 1 | _ => False end.
Definition lost (s : nst) : Prop := match s with S6 z | S7 z => z <> 1 | _ => False end.
Definition of_obj (s : nst) : option positive := match s with S2'' l | S2 l | S3 l | S4 l | S5 l _ => Some l | _ => None end.
Definition goes (pc : nat -> nst) (i : nat) (x : nst) : nat -> nst := fun j => if decide (j = i) then x else pc j.
Lemma goes_eq pc i x : goes pc i x i = x. Proof. unfold goes. rewrite decide_True; auto. Qed.
Lemma goes_ne pc i x j : j <> i -> goes pc i x j = pc j. Proof. intros. unfold goes. rewrite decide_False; auto. Qed.
(** [only] is the hash that is there from the start, if there is one *)
Record nok (only : option positive) (pc : nat -> nst) (w : world) (d : gmap gostr gval) : Prop := {
  o_data : w_data w = Some d; o_exp : w_exp w = Some e; o_key : forall x, d !! k = Some x -> exists l, x = VHash l;
  o_heap : forall l, (d !! k = Some (VHash l) \/ exists i, of_obj (pc i) = Some l) -> (l < w_next w)%positive /\ exists o, w_heap w !! l = Some o /\ (is_Some (h_map o !! f) -> exists j, won (pc j));
  o_lost : forall i, lost (pc i) -> exists j, won (pc j);
  o_num : forall i z, pc i = S6 z \/ pc i = S7 z -> z = 0 \/ z = 1;
  o_only : forall l0, only = Some l0 -> d !! k = Some (VHash l0) /\ (forall i l, of_obj (pc i) = Some l -> l = l0) /\ (forall i, pc i <> S2' /\ forall l, pc i <> S2'' l) /\
    (forall o, w_heap w !! l0 = Some o -> h_map o !! f = None -> forall i, ~ won (pc i)) /\ (forall i j, won (pc i) -> won (pc j) -> i = j) }.
Record ntok (vs : list gostr) (p : list event) (pc : nat -> nst) (th : gmap nat (prog reply)) : Prop := {
  u_prog : forall i v, vs !! i = Some v -> th !! i = nprog v (pc i); u_none : forall i, vs !! i = None -> th !! i = None /\ pc i = S0;
  u_inv : forall i cl, EInv i cl ∈ p -> pc i <> S0; u_called : forall i, pc i <> S0 -> exists cl, EInv i cl ∈ p; u_ret : forall i r, ERet i r ∈ p -> exists z, r = RInt (z, None) /\ pc i = S7 z }.
Lemma won_goes pc i x : (won (pc i) <-> won x) -> forall j, won (goes pc i x j) <-> won (pc j).
Proof. intros H j. unfold goes. destruct (decide (j = i)) as [->|]; tauto. Qed.
(** A move that leaves the world alone. *)
Lemma nok_still only pc w d i x : nok only pc w d -> (won (pc i) <-> won x) -> (forall l, of_obj x = Some l -> of_obj (pc i) = Some l \/ d !! k = Some (VHash l)) ->
  (lost x -> exists j, won (pc j)) -> (forall z, x = S6 z \/ x = S7 z -> z = 0 \/ z = 1) -> (only <> None -> x <> S2' /\ forall l, x <> S2'' l) -> nok only (goes pc i x) w d.
Proof.
  intros [O1 O2 O3 O4 O5 O6 O7] H1 H2 H3 H4 H5. pose proof (won_goes pc i x H1) as HW. constructor; try assumption.
  - intros l Hl. destruct (O4 l) as (Hlt & o & Ho & Hw).
    + destruct Hl as [Hl|[j Hl]]; [auto|]. unfold goes in Hl. destruct (decide (j = i)); [destruct (H2 _ Hl); eauto|eauto].
    + split; [exact Hlt|]. exists o. split; [exact Ho|]. intros Hs. destruct (Hw Hs) as [j Hj]. exists j. apply HW, Hj.
  - intros j Hj. assert (Hx : exists j', won (pc j')) by (unfold goes in Hj; destruct (decide (j = i)); eauto). destruct Hx as [j' Hj']. exists j'. apply HW, Hj'.
  - intros j z. unfold goes. destruct (decide (j = i)); eauto.
  - intros l0 Hl0. destruct (O7 l0 Hl0) as (P1 & P2 & P3 & P4 & P5). split; [exact P1|]. split; [|split; [|split]].
    + intros j l. unfold goes. destruct (decide (j = i)); [|eauto]. intros Hl. destruct (H2 _ Hl) as [H|H]; [eauto|congruence].
    + intros j. unfold goes. destruct (decide (j = i)); [apply H5; congruence|apply P3].
    + intros o Ho Hf j. rewrite HW. eauto.
    + intros a b. rewrite !HW. apply P5.
Qed.
Lemma ntok_move vs p pc th i v x ev : ntok vs p pc th -> vs !! i = Some v -> (forall z, pc i <> S7 z) -> x <> S0 ->
  (ev = [] /\ pc i <> S0 /\ (forall z, x <> S7 z) \/ (exists cl, ev = [EInv i cl]) \/ (exists z, ev = [ERet i (RInt (z, None))] /\ x = S7 z) /\ pc i <> S0) ->
  ntok vs (p ++ ev) (goes pc i x) (match nprog v x with Some y => <[i := y]> th | None => delete i th end).
Proof.
  intros [T1 T2 T3 T4 T5] Hf H7 H0 Hev. constructor.
  - intros j g Hj. destruct (decide (j = i)) as [->|Hne].
    + rewrite goes_eq. rewrite Hf in Hj. injection Hj as <-. destruct (nprog v x); [apply lookup_insert|apply lookup_delete].
    + rewrite goes_ne by auto. destruct (nprog v x); [rewrite lookup_insert_ne by auto|rewrite lookup_delete_ne by auto]; auto.
  - intros j Hj. assert (j <> i) by congruence. rewrite goes_ne by auto. destruct (nprog v x); [rewrite lookup_insert_ne by auto|rewrite lookup_delete_ne by auto]; auto.
  - intros j cl Hj. destruct (decide (j = i)) as [->|Hne]; [rewrite goes_eq; exact H0|rewrite goes_ne by auto]. apply elem_of_app in Hj as [Hj|Hj]; [eauto|].
    destruct Hev as [(-> & _)|[[cl' ->]|[(z & -> & _) _]]]; [inversion Hj| |]; apply elem_of_list_singleton in Hj; congruence.
  - intros j Hj. destruct (decide (j = i)) as [->|Hne].
    + destruct Hev as [(-> & H & _)|[[cl ->]|[_ H]]]; [destruct (T4 _ H) as [cl Hc]; exists cl; apply elem_of_app; auto| |destruct (T4 _ H) as [cl Hc]; exists cl; apply elem_of_app; auto].
      exists cl. apply elem_of_app. right. apply elem_of_list_here.
    + rewrite goes_ne in Hj by auto. destruct (T4 _ Hj) as [cl Hc]. exists cl. apply elem_of_app. auto.
  - intros j r Hj. destruct (decide (j = i)) as [->|Hne].
    + rewrite goes_eq. apply elem_of_app in Hj as [Hj|Hj]; [exfalso; destruct (T5 _ _ Hj) as (z & _ & Hz); exact (H7 _ Hz)|]. destruct Hev as [(-> & _)|[[cl' ->]|[(z & -> & Hx) _]]]; [inversion Hj| |]; apply elem_of_list_singleton in Hj; [congruence|].
      injection Hj as ->. eauto.
    + rewrite goes_ne by auto. apply elem_of_app in Hj as [Hj|Hj]; [eauto|]. destruct Hev as [(-> & _)|[[cl' ->]|[(z & -> & _) _]]]; [inversion Hj| |]; apply elem_of_list_singleton in Hj; congruence.
Qed.
Definition ninv (only : option positive) (vs : list gostr) (p : list event) (c : conf) : Prop := exists pc d, nok only pc (c_w c) d /\ ntok vs p pc (c_th c).
Lemma nxs_inv ys : forall i0 i cl, EInv i cl ∈ nxs k f i0 ys -> (i0 <= i)%nat /\ exists v, map fst ys !! (i - i0)%nat = Some v /\ cl = CHSetNX k f v.
Proof.
  induction ys as [|[v b] ys IH]; intros i0 i cl H; [inversion H|]. cbn [nxs] in H. apply elem_of_cons in H as [[= -> ->]|H].
  - split; [lia|]. exists v. rewrite Nat.sub_diag. auto.
  - apply elem_of_cons in H as [[=]|H]. destruct (IH _ _ _ H) as (H1 & g & H2 & ->). split; [lia|]. exists g. split; [|reflexivity].
    replace (i - i0)%nat with (S (i - S i0))%nat by lia. exact H2.
Qed.
Lemma nxs_ret ys : forall i0 i r, ERet i r ∈ nxs k f i0 ys -> (i0 <= i)%nat.
Proof. induction ys as [|[v b] ys IH]; intros i0 i r H; [inversion H|]. cbn [nxs] in H. apply elem_of_cons in H as [[=]|H]. apply elem_of_cons in H as [[= -> ->]|H]; [lia|]. apply IH in H. lia. Qed.
Lemma nxs_nodup ys : forall i0, NoDup (nxs k f i0 ys).
Proof.
  induction ys as [|[v b] ys IH]; intros i0; cbn [nxs]; [constructor|]. constructor; [|constructor; [|apply IH]].
  - intros H. apply elem_of_cons in H as [[=]|H]. apply nxs_inv in H as [H _]. lia.
  - intros H. apply nxs_ret in H. lia.
Qed.
Lemma nxs_notick ys : forall i0 t, ETick t ∉ nxs k f i0 ys.
Proof. induction ys as [|[v b] ys IH]; intros i0 t H; [inversion H|]. cbn [nxs] in H. apply elem_of_cons in H as [[=]|H]. apply elem_of_cons in H as [[=]|H]. exact (IH _ _ H). Qed.
Lemma nxs_has ys : forall i0 i y, ys !! i = Some y -> ERet (i0 + i) (RInt (snd y, None)) ∈ nxs k f i0 ys.
Proof.
  induction ys as [|[v b] ys IH]; intros i0 [|i] y H; try discriminate; cbn [nxs].
  - injection H as <-. rewrite Nat.add_0_r. apply elem_of_list_further, elem_of_list_here.
  - rewrite Nat.add_succ_r. apply elem_of_list_further, elem_of_list_further. apply (IH (S i0) i y H).
Qed.
Lemma ninv_step only ys p a c c' ev rest :
  ninv only (map fst ys) p c -> cstep a c = Some (c', ev) -> p ++ ev ++ rest ≡ₚ nxs k f 0 ys -> ninv only (map fst ys) (p ++ ev) c'.
Proof.
  set (vs := map fst ys). intros (pc & d & HK & HT) E P. destruct a as [i cl|i|i|t]; cbn [cstep] in E.
  - destruct (c_th c !! i) eqn:Ei; [discriminate|]. injection E as <- <-.
    assert (Hin : EInv i cl ∈ nxs k f 0 ys) by (rewrite <- P, !elem_of_app, ?elem_of_list_singleton; auto). destruct (nxs_inv _ _ _ _ Hin) as (_ & v & Hf & ->). rewrite Nat.sub_0_r in Hf.
    assert (Hnew : forall cl', EInv i cl' ∉ p).
    { intros cl' H. assert (Hin' : EInv i cl' ∈ nxs k f 0 ys) by (rewrite <- P, !elem_of_app, ?elem_of_list_singleton; auto). destruct (nxs_inv _ _ _ _ Hin') as (_ & v' & Hf' & ->). rewrite Nat.sub_0_r, Hf in Hf'. injection Hf' as <-.
      pose proof (nxs_nodup ys 0) as N. rewrite <- P in N. apply list.NoDup_app in N as (_ & N & _). apply (N _ H). apply elem_of_app. left. apply elem_of_list_here. }
    assert (Hpc : pc i = S0). { assert (Dec : pc i = S0 \/ pc i <> S0) by (destruct (pc i); auto; right; discriminate). destruct Dec as [H|H]; [exact H|]. destruct (u_called _ _ _ _ HT _ H) as [cl Hc]. destruct (Hnew _ Hc). }
    exists (goes pc i S1), d. split.
    + apply (nok_still only pc _ d i S1 HK); rewrite ?Hpc; cbn; try discriminate; try tauto. * intros z [?|?]; discriminate. * intros _. split; discriminate.
    + apply (ntok_move vs p pc (c_th c) i v S1 _ HT Hf); rewrite ?Hpc; try discriminate. right. left. eauto.
  - destruct (c_th c !! i) as [pr|] eqn:Ei; [|discriminate]. destruct pr as [|g]; [discriminate|].
    assert (exists v, vs !! i = Some v) as [v Hf] by (destruct (vs !! i) eqn:Ef; [eauto|rewrite (proj1 (u_none _ _ _ _ HT _ Ef)) in Ei; discriminate]).
    rewrite (u_prog _ _ _ _ HT _ _ Hf) in Ei.
    assert (G : forall q w' p', nprog v (pc i) = Some q -> go1 q (c_w c) w' p' -> ev = [] /\ c' = Conf w' (<[i := p']> (c_th c))).
    { intros q w' p' Hq (g' & -> & Eg). rewrite Hq in Ei. injection Ei as <-. rewrite Eg in E. injection E as <- <-. auto. }
    assert (TM : forall x y, (forall z, pc i <> S7 z) -> pc i <> S0 -> x <> S0 -> (forall z, x <> S7 z) -> nprog v x = Some y -> ntok vs (p ++ []) (goes pc i x) (<[i := y]> (c_th c))).
    { intros x y H1 H2 H3 H4 Hy. pose proof (ntok_move vs p pc (c_th c) i v x [] HT Hf H1 H3 (or_introl (conj eq_refl (conj H2 H4)))) as T. rewrite Hy in T. exact T. }
    pose proof HK as [O1 O2 O3 O4 O5 O6 O7].
    destruct (pc i) as [| | |l|l|l|l|l n|z|z] eqn:Hpc; try discriminate.
    + destruct (d !! k) as [x|] eqn:Edk.
      * destruct (O3 _ eq_refl) as (l & ->). destruct (G _ _ _ eq_refl (sn_some v _ d l O1 Edk)) as [-> ->]. exists (goes pc i (S2 l)), d. split; [|apply TM; easy].
        apply (nok_still only pc _ d i _ HK); rewrite ?Hpc, ?Edk; cbn; try discriminate; try tauto. -- intros l' [= <-]. auto. -- intros z [?|?]; discriminate. -- intros _. split; discriminate.
      * destruct (G _ _ _ eq_refl (sn_none v _ d O1 Edk)) as [-> ->]. exists (goes pc i S2'), d. split; [|apply TM; easy].
        apply (nok_still only pc _ d i _ HK); rewrite ?Hpc; cbn; try discriminate; try tauto. -- intros z [?|?]; discriminate. -- intros Ho. destruct only as [l0|]; [|congruence]. destruct (O7 l0 eq_refl) as [H _]. discriminate.
    + assert (Hon : only = None). { destruct only as [l0|]; [|reflexivity]. destruct (O7 l0 eq_refl) as (_ & _ & H & _). destruct (proj1 (H i) Hpc). }
      destruct (G _ _ _ eq_refl (sn_alloc v _)) as [-> ->]. exists (goes pc i (S2'' (w_next (c_w c)))), d. split; [|apply TM; easy].
      assert (HW : forall j, won (goes pc i (S2'' (w_next (c_w c))) j) <-> won (pc j)) by (apply won_goes; rewrite Hpc; cbn; tauto).
      constructor; cbn [grown w_data w_exp w_next w_heap c_w]; auto.
      * intros l Hl. assert (Hl' : l = w_next (c_w c) \/ (d !! k = Some (VHash l) \/ exists j, of_obj (pc j) = Some l)).
        { destruct Hl as [Hl|[j Hl]]; [auto|]. unfold goes in Hl. destruct (decide (j = i)); [injection Hl as <-; auto|eauto]. }
        destruct Hl' as [->|Hl'].
        -- split; [lia|]. exists (HObj ∅ 0). split; [apply lookup_insert|]. intros [y Hy]. cbn in Hy. rewrite lookup_empty in Hy. discriminate.
        -- destruct (O4 l Hl') as (Hlt & o & Ho & Hw). split; [lia|]. exists o. rewrite lookup_insert_ne by lia. split; [exact Ho|]. intros Hs. destruct (Hw Hs) as [j Hj]. exists j. apply HW, Hj.
      * intros j Hj. assert (Hx : lost (pc j)) by (unfold goes in Hj; destruct (decide (j = i)); [destruct Hj|exact Hj]). destruct (O5 _ Hx) as [j' Hj']. exists j'. apply HW, Hj'.
      * intros j z. unfold goes. destruct (decide (j = i)); [intros [?|?]; discriminate|eauto].
      * intros l0 ->. discriminate.
    + assert (Hon : only = None). { destruct only as [l0|]; [|reflexivity]. destruct (O7 l0 eq_refl) as (_ & _ & H & _). destruct (proj2 (H i) _ Hpc). }
      destruct (G _ _ _ eq_refl (sn_store v _ d l O1)) as [-> ->]. exists (goes pc i (S3 l)), (<[k := VHash l]> d). split; [|apply TM; easy].
      assert (HW : forall j, won (goes pc i (S3 l) j) <-> won (pc j)) by (apply won_goes; rewrite Hpc; cbn; tauto).
      constructor; cbn [set_data w_data w_exp w_next w_heap c_w]; auto.
      * intros x. rewrite lookup_insert. intros [= <-]. eauto.
      * intros l' Hl. destruct (O4 l') as (Hlt & o & Ho & Hw).
        { right. destruct Hl as [Hl|[j Hl]]; [rewrite lookup_insert in Hl; injection Hl as <-; exists i; rewrite Hpc; reflexivity|]. unfold goes in Hl. destruct (decide (j = i)); [injection Hl as <-; exists i; rewrite Hpc; reflexivity|eauto]. }
        split; [exact Hlt|]. exists o. split; [exact Ho|]. intros Hs. destruct (Hw Hs) as [j Hj]. exists j. apply HW, Hj.
      * intros j Hj. assert (Hx : lost (pc j)) by (unfold goes in Hj; destruct (decide (j = i)); [destruct Hj|exact Hj]). destruct (O5 _ Hx) as [j' Hj']. exists j'. apply HW, Hj'.
      * intros j z. unfold goes. destruct (decide (j = i)); [intros [?|?]; discriminate|eauto].
      * intros l0 ->. discriminate.
    + destruct (G _ _ _ eq_refl (sn_exp v _ l O2)) as [-> ->]. exists (goes pc i (S3 l)), d. split; [|apply TM; easy].
      apply (nok_still only pc _ d i _ HK); rewrite ?Hpc; cbn; try discriminate; try tauto. * intros z [?|?]; discriminate. * intros _. split; discriminate.
    + destruct (O4 l) as (Hlt & o & Ho & Hw); [right; exists i; rewrite Hpc; reflexivity|]. destruct (h_map o !! f) as [y|] eqn:Eof.
      * destruct (G _ _ _ eq_refl (sn_lose v _ l o Ho ltac:(rewrite Eof; eauto))) as [-> ->]. exists (goes pc i (S6 0)), d. split; [|apply TM; easy].
        apply (nok_still only pc _ d i _ HK); rewrite ?Hpc; cbn; try discriminate; try (split; [tauto|discriminate]). -- intros _. apply Hw. eauto. -- intros z [[= <-]|?]; [auto|discriminate]. -- intros _. split; discriminate.
      * destruct (G _ _ _ eq_refl (sn_win v _ l o Ho Eof)) as [-> ->]. exists (goes pc i (S4 l)), d. split; [|apply TM; easy].
        assert (Hi : won (goes pc i (S4 l) i)) by (rewrite goes_eq; exact I).
        constructor; cbn [set_heap w_data w_exp w_next w_heap c_w]; auto.
        -- intros l' Hl. destruct (O4 l') as (Hlt' & o' & Ho' & _).
           { destruct Hl as [Hl|[j Hl]]; [auto|]. right. unfold goes in Hl. destruct (decide (j = i)); [injection Hl as <-; exists i; rewrite Hpc; reflexivity|eauto]. }
           split; [exact Hlt'|]. destruct (decide (l' = l)) as [->|Hne]; [rewrite lookup_insert|rewrite lookup_insert_ne by auto]; eexists; (split; [first [reflexivity|exact Ho']|]); eauto.
        -- eauto.
        -- intros j z. unfold goes. destruct (decide (j = i)); [intros [?|?]; discriminate|eauto].
        -- intros l0 Hl0. destruct (O7 l0 Hl0) as (P1 & P2 & P3 & P4 & P5). assert (l = l0) by (apply (P2 i); rewrite Hpc; reflexivity). subst l0. split; [exact P1|]. split; [|split; [|split]].
           ++ intros j l'. unfold goes. destruct (decide (j = i)); [intros [= <-]; reflexivity|eauto].
           ++ intros j. unfold goes. destruct (decide (j = i)); [split; discriminate|apply P3].
           ++ intros o'. rewrite lookup_insert. intros [= <-]. cbn. rewrite lookup_insert. discriminate.
           ++ assert (Hno : forall j, won (goes pc i (S4 l) j) -> j = i). { intros j. unfold goes. destruct (decide (j = i)); [auto|]. intros Hj. destruct (P4 o Ho Eof j Hj). }
              intros a b Ha Hb. rewrite (Hno _ Ha), (Hno _ Hb). reflexivity.
    + destruct (O4 l) as (Hlt & o & Ho & Hw); [right; exists i; rewrite Hpc; reflexivity|].
      destruct (G _ _ _ eq_refl (sn_len _ l o Ho)) as [-> ->]. exists (goes pc i (S5 l (h_len o))), d. split; [|apply TM; easy].
      apply (nok_still only pc _ d i _ HK); rewrite ?Hpc; cbn; try discriminate; try tauto. * intros z [?|?]; discriminate. * intros _. split; discriminate.
    + destruct (O4 l) as (Hlt & o & Ho & Hw); [right; exists i; rewrite Hpc; reflexivity|].
      destruct (G _ _ _ eq_refl (sn_set _ l o n Ho)) as [-> ->]. exists (goes pc i (S6 1)), d. split; [|apply TM; easy].
      assert (HK' : nok only pc (set_heap (c_w c) (<[l := HObj (h_map o) (wrap64 (n + 1))]> (w_heap (c_w c)))) d).
      { constructor; cbn [set_heap w_data w_exp w_next w_heap c_w]; auto.
        - intros l' Hl'. destruct (O4 l' Hl') as (Hlt' & o' & Ho' & Hw'). split; [exact Hlt'|]. destruct (decide (l' = l)) as [->|Hne]; [rewrite lookup_insert; eexists; split; [reflexivity|]; exact Hw|rewrite lookup_insert_ne by auto; eauto].
        - intros l0 Hl0. destruct (O7 l0 Hl0) as (P1 & P2 & P3 & P4 & P5). repeat (split; [assumption|]). split; [|exact P5]. intros o'. destruct (decide (l0 = l)) as [->|Hne]; [rewrite lookup_insert; intros [= <-]; cbn; apply (P4 _ Ho)|rewrite lookup_insert_ne by auto; apply P4]. }
      apply (nok_still only pc _ d i _ HK'); rewrite ?Hpc; cbn; try discriminate; try tauto. * intros z [[= <-]|?]; [auto|discriminate]. * intros _. split; discriminate.
  - destruct (c_th c !! i) as [pr|] eqn:Ei; [|discriminate]. destruct pr as [r|]; [|discriminate]. injection E as <- <-.
    assert (exists v, vs !! i = Some v) as [v Hf] by (destruct (vs !! i) eqn:Ef; [eauto|rewrite (proj1 (u_none _ _ _ _ HT _ Ef)) in Ei; discriminate]).
    rewrite (u_prog _ _ _ _ HT _ _ Hf) in Ei. destruct (pc i) as [| | | | | | | |z|] eqn:Hpc; try discriminate. injection Ei as <-.
    exists (goes pc i (S7 z)), d. split.
    + apply (nok_still only pc _ d i (S7 z) HK); rewrite ?Hpc; cbn; try discriminate; try tauto.
      * intros Hz. apply (o_lost _ _ _ _ HK i). rewrite Hpc. exact Hz.
      * intros z' [?|[= <-]]; [discriminate|]. apply (o_num _ _ _ _ HK i). auto.
      * intros _. split; discriminate.
    + apply (ntok_move vs p pc (c_th c) i v (S7 z) _ HT Hf); rewrite ?Hpc; try discriminate. right. right. split; [eauto|discriminate].
  - destruct (w_now (c_w c) <=? t); [|discriminate]. injection E as <- <-. exfalso. apply (nxs_notick ys 0 t). rewrite <- P. rewrite !elem_of_app, elem_of_list_singleton. auto.
Qed.
Lemma ninv_exec only ys s : forall p c c' evs, ninv only (map fst ys) p c -> cexec s c = Some (c', evs) -> p ++ evs ≡ₚ nxs k f 0 ys -> ninv only (map fst ys) (p ++ evs) c'.
Proof.
  induction s as [|a s IH]; intros p c c' evs HI E P; cbn [cexec] in E; [injection E as <- <-; rewrite app_nil_r; exact HI|].
  destruct (cstep a c) as [[c1 e1]|] eqn:E1; [|discriminate]. destruct (cexec s c1) as [[c2 e2]|] eqn:E2; [|discriminate]. injection E as <- <-.
  rewrite app_assoc. apply (IH _ c1); [|exact E2|rewrite <- app_assoc; exact P]. exact (ninv_step only ys p a c c1 e1 e2 HI E1 P).
Qed.
(** at the end, what each goroutine was told *)
Lemma ninv_end only ys s w0 d c evs : w_data w0 = Some d -> w_exp w0 = Some e ->
  match only with
  | Some l => d !! k = Some (VHash l) /\ (l < w_next w0)%positive /\ exists o, w_heap w0 !! l = Some o /\ h_map o !! f = None
  | None => d !! k = None end ->
  cexec s (start w0) = Some (c, evs) -> evs ≡ₚ nxs k f 0 ys ->
  (forall i y, ys !! i = Some y -> snd y = 0 \/ snd y = 1) /\
  (ys <> [] -> exists i y, ys !! i = Some y /\ snd y = 1) /\
  (only <> None -> forall i j y z, ys !! i = Some y -> ys !! j = Some z -> snd y = 1 -> snd z = 1 -> i = j).
Proof.
  intros Ed Ee Ho E P.
  assert (HI : ninv only (map fst ys) [] (start w0)).
  { exists (fun _ => S0), d. split.
    - constructor; cbn; auto; try tauto.
      + intros x Hx. destruct only as [l|]; [destruct Ho as [Ho _]|]; rewrite Ho in Hx; [injection Hx as <-; eauto|discriminate].
      + intros l [Hl|[i Hl]]; [|discriminate]. destruct only as [l0|]; [destruct Ho as (Ho & Hlt & o & Hh & Hf)|]; rewrite Ho in Hl; [|discriminate]. injection Hl as <-. split; [exact Hlt|]. exists o. split; [exact Hh|]. rewrite Hf. intros [? ?]. discriminate.
      + intros i z [?|?]; discriminate.
      + intros l0 ->. destruct Ho as (Ho & _). repeat split; auto; try discriminate; tauto.
    - constructor; cbn; try (intros; rewrite ?lookup_empty; auto; fail); try congruence; try (intros ? ? H; inversion H). }
  destruct (ninv_exec only ys s [] _ _ _ HI E P) as (pc & d' & [O1 O2 O3 O4 O5 O6 O7] & T).
  assert (Hall : forall i y, ys !! i = Some y -> pc i = S7 (snd y)).
  { intros i y Hy. destruct (u_ret _ _ _ _ T i (RInt (snd y, None))) as (z & [= <-] & Hz); [|exact Hz]. cbn [app]. rewrite P. apply (nxs_has ys 0 i y Hy). }
  assert (Hwon : forall j, won (pc j) -> exists y, ys !! j = Some y /\ snd y = 1).
  { intros j Hj. destruct (ys !! j) as [y|] eqn:Ej; [exists y; split; [reflexivity|]; rewrite (Hall _ _ Ej) in Hj; exact Hj|].
    destruct (u_none _ _ _ _ T j) as [_ H]; [|rewrite H in Hj; destruct Hj]. change (map fst ys) with (fst <$> ys). rewrite list_lookup_fmap, Ej. reflexivity. }
  split; [|split].
  - intros i y Hy. apply (O6 i). right. apply Hall, Hy.
  - intros Hne. destruct ys as [|y0 ys']; [congruence|]. pose proof (Hall 0%nat y0 eq_refl) as H0. destruct (decide (snd y0 = 1)) as [H1|H1]; [exists 0%nat, y0; auto|].
    destruct (O5 0%nat) as [j Hj]; [rewrite H0; exact H1|]. destruct (Hwon j Hj) as (y & Hy & H). eauto.
  - intros Hon i j y z Hy Hz H1 H2. destruct only as [l0|]; [|congruence]. destruct (O7 l0 eq_refl) as (_ & _ & _ & _ & P5). apply P5; [rewrite (Hall _ _ Hy)|rewrite (Hall _ _ Hz)]; assumption.
Qed.
End nx.

Lemma split_wins (L : list (nat * (gostr * Z))) : (forall x, x ∈ L -> snd (snd x) = 0 \/ snd (snd x) = 1) ->
  exists W X, L ≡ₚ W ++ X /\ Forall (fun x => snd (snd x) = 1) W /\ Forall (fun x => snd (snd x) = 0) X.
Proof.
  induction L as [|x L IH]; intros H; [exists [], []; auto|]. destruct IH as (W & X & P & HW & HX); [intros y Hy; apply H, elem_of_list_further, Hy|].
  destruct (H x (elem_of_list_here _ _)) as [H0|H1]; [exists W, (x :: X)|exists (x :: W), X]; (split; [rewrite P|split; try constructor; assumption]); [apply Permutation_middle|reflexivity].
Qed.
(** Full statement (C201): of several goroutines that HSetNX one absent field exactly one is told 1.
    Proved for a hash that is there: any one of them may win, and exactly one does. *)
Theorem C201_exact_partial w0 k f l fs0 ys :
  ready w0 -> stored w0 k = Some (VHash l) -> deadline w0 k = None -> answer (w_now w0) (CHKeys k) w0 = Some (RList (fs0, None)) -> f ∉ fs0 -> ys <> [] ->
  (exists s c evs, cexec s (start w0) = Some (c, evs) /\ evs ≡ₚ nxs k f 0 ys) <->
  exists a v b, ys = a ++ (v, 1) :: b /\ Forall (fun y => snd y = 0) (a ++ b).
Proof.
  intros Hr Hs Hdl Hf0 Hnew Hne. destruct Hr as [R1 R2 (d & Ed & Hptr & Huniq) [e Ee] R5 R6]. unfold stored in Hs. unfold deadline in Hdl. rewrite Ed in Hs. rewrite Ee in Hdl.
  destruct (Hptr _ _ Hs) as [o Ho].
  assert (Hof : h_map o !! f = None).
  { destruct (h_map o !! f) as [y|] eqn:Ef; [|reflexivity]. exfalso. apply Hnew. rewrite (hkeys_of k e w0 d l o _ Ed Ee Hs Hdl Ho) in Hf0. injection Hf0 as <-. apply elem_of_list_fmap. exists (f, y). split; [reflexivity|]. apply elem_of_map_to_list, Ef. }
  split.
  - intros (s & c & evs & E & P). destruct (ninv_end k f e Hdl (Some l) ys s w0 d c evs Ed Ee) as (H1 & H2 & H3); [repeat split; eauto|exact E|exact P|].
    destruct (H2 Hne) as (i & [v b] & Hy & Hb). cbn in Hb. subst b. exists (firstn i ys), v, (skipn (S i) ys). split; [symmetry; apply take_drop_middle, Hy|].
    apply list.Forall_forall. intros y Hin. apply elem_of_app in Hin as [Hin|Hin]; apply elem_of_list_lookup in Hin as [j Hj].
    + assert (j < i)%nat by (apply lookup_lt_Some in Hj; rewrite firstn_length in Hj; lia). change (firstn i ys) with (take i ys) in Hj. rewrite lookup_take in Hj by lia. destruct (H1 _ _ Hj) as [?|Hz]; [assumption|]. pose proof (H3 ltac:(discriminate) j i y (v, 1) Hj Hy Hz eq_refl). lia.
    + change (skipn (S i) ys) with (drop (S i) ys) in Hj. rewrite lookup_drop in Hj. destruct (H1 _ _ Hj) as [?|Hz]; [assumption|]. pose proof (H3 ltac:(discriminate) _ i y (v, 1) Hj Hy Hz eq_refl). lia.
  - intros (a & v & b & -> & HF). set (L := nums 0 a). set (R := nums (S (length a)) b).
    assert (HL : nums 0 (a ++ (v, 1) :: b) = L ++ (length a, (v, 1)) :: R).
    { unfold L, R. assert (G : forall i, nums i (a ++ (v, 1) :: b) = nums i a ++ ((length a + i)%nat, (v, 1)) :: nums (S (length a + i)) b).
      { clear. induction a as [|x a IH]; intros i; [reflexivity|]. cbn. rewrite IH. do 3 f_equal; [f_equal; lia|]. f_equal. lia. }
      rewrite G, Nat.add_0_r. reflexivity. }
    assert (HX : Forall (fun x => snd (snd x) = 0) (L ++ R)).
    { apply list.Forall_forall. intros x Hx. rewrite list.Forall_forall in HF. apply HF. apply elem_of_app. apply elem_of_app in Hx as [Hx|Hx]; [left|right]; [rewrite <- (nums_snd a 0)|rewrite <- (nums_snd b (S (length a)))]; apply elem_of_list_fmap; eauto. }
    destruct (exec_win k f e Hdl w0 ∅ (length a) v) as (w1 & E1 & Hh); [exists d, l, o; auto|apply lookup_empty|].
    eexists _, (Conf w1 ∅), _. split.
    + rewrite cexec_app. unfold start. rewrite E1, (exec_losing k f e Hdl (L ++ R) w1 ∅ Hh (fun _ _ => lookup_empty _) HX). reflexivity.
    + rewrite nxs_nums, HL. change ([EInv (length a) (CHSetNX k f v); ERet (length a) (RInt (1, None))]) with (pnx k f [(length a, (v, 1))]). rewrite <- pnx_app. apply pnx_perm. cbn. apply Permutation_middle.
Qed.
(** Refuted for a key that is not there: any of them, and any number of them, may be told 1, but not none. *)
Theorem C201_new_hash_refuted w0 k f ys :
  ready w0 -> stored w0 k = None -> deadline w0 k = None -> ys <> [] ->
  (exists s c evs, cexec s (start w0) = Some (c, evs) /\ evs ≡ₚ nxs k f 0 ys) <->
  Forall (fun y => snd y = 0 \/ snd y = 1) ys /\ Exists (fun y => snd y = 1) ys.
Proof.
  intros Hr Hs Hdl Hne. destruct Hr as [R1 R2 (d & Ed & Hptr & Huniq) [e Ee] R5 R6]. unfold stored in Hs. unfold deadline in Hdl. rewrite Ed in Hs. rewrite Ee in Hdl. split.
  - intros (s & c & evs & E & P). destruct (ninv_end k f e Hdl None ys s w0 d c evs Ed Ee Hs E P) as (H1 & H2 & _). split.
    + apply Forall_lookup. exact H1.
    + destruct (H2 Hne) as (i & y & Hy & H). apply list.Exists_exists. exists y. split; [apply elem_of_list_lookup; eauto|exact H].
  - intros [H1 H2]. destruct (split_wins (nums 0 ys)) as (W & X & P & HW & HX).
    { intros x Hx. rewrite list.Forall_forall in H1. apply H1. rewrite <- (nums_snd ys 0). apply elem_of_list_fmap. eauto. }
    assert (N : NoDup (map fst (nums 0 ys))) by (rewrite nums_fst; apply NoDup_seq). rewrite P, map_app in N. apply list.NoDup_app in N as (N1 & _ & _).
    assert (HW0 : W <> []).
    { intros ->. apply list.Exists_exists in H2 as (y & Hy & H). rewrite <- (nums_snd ys 0) in Hy. apply elem_of_list_fmap in Hy as (x & -> & Hx). rewrite P in Hx. cbn in Hx. rewrite list.Forall_forall in HX. specialize (HX _ Hx). cbn in HX. lia. }
    destruct (exec_winning k f e W w0 ∅ d Ed Hs Ee N1 (fun _ _ => lookup_empty _) HW) as (w1 & evs & E1 & P1 & _ & _ & Hh).
    exists (winning k f W ++ losing k f X), (Conf w1 ∅), (evs ++ pnx k f X). split.
    + rewrite cexec_app. unfold start. rewrite E1, (exec_losing k f e Hdl X w1 ∅ (Hh HW0) (fun _ _ => lookup_empty _) HX). reflexivity.
    + rewrite P1, <- pnx_app, nxs_nums. apply pnx_perm. symmetry. exact P.
Qed.
(** Two goroutines create the hash and both are told 1, in a new cache. *)
Theorem C201_two_winners_refuted : exists s c evs, cexec s (start (new_world 0)) = Some (c, evs) /\
  evs ≡ₚ nxs (bs "k") (bs "f") 0 [(bs "a", 1); (bs "b", 1)].
Proof. apply C201_new_hash_refuted; [apply (ready_new 0)|reflexivity|reflexivity|discriminate|]. split; [|constructor; reflexivity]. constructor; [right; reflexivity|]. constructor; [right; reflexivity|constructor]. Qed.
Example C201_nonvacuous : ready demo /\ (exists l, stored demo (bs "h") = Some (VHash l)) /\ deadline demo (bs "h") = None /\
  answer 8 (CHKeys (bs "h")) demo = Some (RList ([bs "f"], None)) /\
  events_of ([AInv 0 (CHSetNX (bs "h") (bs "x") (bs "a")); AInv 1 (CHSetNX (bs "h") (bs "x") (bs "b"))] ++ runs 1 3 ++ runs 0 3 ++ [ARet 0] ++ runs 1 2 ++ [ARet 1]) demo =
    Some [EInv 0 (CHSetNX (bs "h") (bs "x") (bs "a")); EInv 1 (CHSetNX (bs "h") (bs "x") (bs "b")); ERet 0 (RInt (0, None)); ERet 1 (RInt (1, None))].
Proof. split; [apply demo_ready|]. split; [apply C155_nonvacuous|]. split; [apply C155_nonvacuous|]. split; vm_compute; reflexivity. Qed.
Print Assumptions C201_exact_partial.
Print Assumptions C201_new_hash_refuted.
