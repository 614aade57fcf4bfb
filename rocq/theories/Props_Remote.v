(** * Props_Remote: remote commands of many goroutines through the pool, for every schedule *)
From stdpp Require Import gmap.
From Verif Require Import Base GoFloat RespModel RespLib RespSpec ClientModel PoolModel RemoteModel RdbLib Props_Resp Props_Client Props_Pool.

(** What an observer sees: per connection the commands and their results; per goroutine its calls, their results, and what the methods returned. *)
Definition did (c : nat) (l : list mevent) : list (rcall * (cval * option cerr)) :=
  omap (fun x => match x with MDid _ q (Some d) v e => if bool_decide (c = d) then Some (q, (v, e)) else None | _ => None end) l.
Definition calls (i : nat) (l : list mact) : list rcall :=
  omap (fun a => match a with MCall j q => if bool_decide (i = j) then Some q else None | _ => None end) l.
Definition results (i : nat) (l : list mevent) : list (rcall * (cval * option cerr)) :=
  omap (fun x => match x with MDid j q _ v e => if bool_decide (i = j) then Some (q, (v, e)) else None | _ => None end) l.
Definition returns (i : nat) (l : list mevent) : list (cval * option cerr) :=
  omap (fun x => match x with MReturned j v e => if bool_decide (i = j) then Some (v, e) else None | _ => None end) l.
Lemma did_app c l l' : did c (l ++ l') = did c l ++ did c l'. Proof. apply omap_app. Qed.
Lemma results_app i l l' : results i (l ++ l') = results i l ++ results i l'. Proof. apply omap_app. Qed.
Lemma returns_app i l l' : returns i (l ++ l') = returns i l ++ returns i l'. Proof. apply omap_app. Qed.
Lemma calls_app i l l' : calls i (l ++ l') = calls i l ++ calls i l'. Proof. apply omap_app. Qed.

(** ** Executions *)
Lemma mexec_inv (P : list mact -> list mevent -> remote -> Prop) : forall s0 l0 e0 l r' e, P l0 e0 s0 ->
  (forall l x r a r1 e1, P l x r -> mstep a r = Some (r1, e1) -> P (l ++ [a]) (x ++ e1) r1) ->
  mexec l s0 = Some (r', e) -> P (l0 ++ l) (e0 ++ e) r'.
Proof.
  intros s0 l0 e0 l. revert s0 l0 e0. induction l as [|a l IH]; intros s0 l0 e0 r' e H0 Hs E; cbn in E.
  - injection E as <- <-. rewrite !app_nil_r. exact H0.
  - destruct (mstep a s0) as [[r1 e1]|] eqn:E1; [|discriminate]. destruct (mexec l r1) as [[r2 e2]|] eqn:E2; [|discriminate]. injection E as <- <-.
    specialize (IH r1 (l0 ++ [a]) (e0 ++ e1) r2 e2 (Hs _ _ _ _ _ _ H0 E1) Hs E2). rewrite <- !app_assoc in IH. exact IH.
Qed.

(** ** The invariant *)
Definition job_ok (pc : option ppc) (j : option job) : Prop :=
  match pc with
  | None => j = None
  | Some (Lent _) => j <> None
  | Some (PSend _) => exists v e, j = Some (JRet v e)
  | Some (CRange | CClose _) => False
  | Some _ => exists q, j = Some (JGet q)
  end.
Definition tally (j : option job) (cs : list rcall) (rs : list (rcall * (cval * option cerr))) (ret : list (cval * option cerr)) : Prop :=
  match j with
  | None => cs = map fst rs /\ map snd rs = ret
  | Some (JGet q | JSent q) => cs = map fst rs ++ [q] /\ map snd rs = ret
  | Some (JRet v e) => cs = map fst rs /\ map snd rs = ret ++ [(v, e)]
  end.
Definition in_flight (r : remote) (c : nat) (b : gostr) : Prop :=
  (exists i q, p_th (m_pool r) !! i = Some (Lent c) /\ m_job r !! i = Some (JSent q) /\ b = send (convert_to_message (request q))) \/
  (b = [] /\ forall i q, p_th (m_pool r) !! i = Some (Lent c) -> m_job r !! i <> Some (JSent q)).
Definition conn_ok (o : ropt) (l : list mact) (evs : list mevent) (r : remote) (c : nat) (cn : conn) : Prop :=
  exists i cs c0 cn' b, In (MDial i (inr cs)) l /\ open_conn (open_requests o) (Conn [] (new_rd cs)) = OOpen c0 /\
    exec_all (map fst (did c evs)) c0 = Some (map snd (did c evs), cn') /\ cn_in cn = cn_in cn' /\ cn_out cn = cn_out cn' ++ b /\ in_flight r c b.
Record minv (o : ropt) (l : list mact) (evs : list mevent) (r : remote) : Prop := {
  mi_opt : m_opt r = o;
  mi_pool : pinv (m_pool r);
  mi_cap : p_cap (m_pool r) = capacity (o_size o);
  mi_size : p_next (m_pool r) = p_size (m_pool r);
  mi_job : forall i, job_ok (p_th (m_pool r) !! i) (m_job r !! i);
  mi_tally : forall i, tally (m_job r !! i) (calls i l) (results i evs) (returns i evs);
  mi_fresh : forall c, (p_next (m_pool r) <= c)%nat -> m_conn r !! c = None /\ did c evs = [];
  mi_conn : forall c, (c < p_next (m_pool r))%nat -> exists cn, m_conn r !! c = Some cn;
  mi_conns : forall c cn, m_conn r !! c = Some cn -> conn_ok o l evs r c cn
}.
Lemma exec_all_app qs q : forall c rs c1 v e c2, exec_all qs c = Some (rs, c1) -> exec q c1 = CRet v e c2 -> exec_all (qs ++ [q]) c = Some (rs ++ [(v, e)], c2).
Proof.
  induction qs as [|x qs IH]; intros c rs c1 v e c2 E E2; cbn [exec_all app] in *.
  - injection E as <- <-. rewrite E2. reflexivity.
  - destruct (exec x c) as [vx ex cx|]; [|discriminate]. destruct (exec_all qs cx) as [[rx cy]|] eqn:Ey; [|discriminate]. injection E as <- <-.
    rewrite (IH _ _ _ _ _ _ Ey E2). reflexivity.
Qed.
Lemma lent_unique p i j c : pinv p -> p_th p !! i = Some (Lent c) -> p_th p !! j = Some (Lent c) -> i = j.
Proof.
  intros HI Hi Hj. destruct (decide (i = j)) as [|Hne]; [assumption|exfalso].
  pose proof (pi_nodup p HI) as Hd. unfold conns in Hd. apply NoDup_app in Hd as (_ & _ & Hd).
  rewrite (holding_lookup (p_th p) i), Hi in Hd. cbn [held_at held app] in Hd. 
  rewrite (holding_lookup (delete i (p_th p)) j), lookup_delete_ne, Hj in Hd by exact Hne. inversion Hd as [|? ? Hx _]. apply Hx. left.
Qed.
Lemma lent_bound p i c : pinv p -> p_th p !! i = Some (Lent c) -> (c < p_next p)%nat.
Proof.
  intros HI Hi. pose proof (pi_fresh p HI) as Hf. rewrite List.Forall_forall in Hf. apply Hf, elem_of_list_In. unfold conns. apply elem_of_app. right.
  rewrite (holding_lookup (p_th p) i), Hi. left.
Qed.
(** What a step of the pool does to the goroutines: only [i] moves. *)
Lemma pstep_th a p p' e : pstep a p = Some (p', e) ->
  let i := match a with PGet i | PRun i | PDialOk i | PDialFail i | PCancel i | PRelease i | PClose i | PCloseOk i | PCloseErr i => i end in
  forall j, j <> i -> p_th p' !! j = p_th p !! j.
Proof.
  intros E i j Hj. 
  assert (H1 : forall pc, <[i := pc]> (p_th p) !! j = p_th p !! j) by (intros; apply lookup_insert_ne; auto).
  assert (H2 : delete i (p_th p) !! j = p_th p !! j) by (apply lookup_delete_ne; auto).
  destruct a; cbn [pstep] in E; unfold go, ret, set_th, set_chan, set_lock in E; cbn [p_cap p_size p_chan p_lock p_next p_th] in E;
  repeat (case_match; try discriminate); injection E as <- <-; cbn [p_th]; first [apply H1 | exact H2].
Qed.
Lemma pstep_next a p p' e : pstep a p = Some (p', e) -> p_next p' = match a with PDialOk _ => S (p_next p) | _ => p_next p end /\ p_size p' = match a with PDialOk _ => S (p_size p) | _ => p_size p end.
Proof.
  intros E. destruct a; cbn [pstep] in E; unfold go, ret, set_th, set_chan, set_lock in E; cbn [p_cap p_size p_chan p_lock p_next p_th] in E;
  repeat (case_match; try discriminate); injection E as <- <-; auto.
Qed.

Definition sent (r : remote) (i : nat) : Prop := exists c q, p_th (m_pool r) !! i = Some (Lent c) /\ m_job r !! i = Some (JSent q).
Lemma in_flight_frame r r' i c b : (forall j, j <> i -> p_th (m_pool r') !! j = p_th (m_pool r) !! j /\ m_job r' !! j = m_job r !! j) ->
  ~ sent r i -> ~ sent r' i -> in_flight r c b -> in_flight r' c b.
Proof.
  intros Hf H1 H2 [(k & q & A & B & C)|(A & B)].
  - left. exists k, q. destruct (decide (k = i)) as [->|Hne]; [destruct H1; exists c, q; auto|]. destruct (Hf k Hne) as [-> ->]. auto.
  - right. split; [exact A|]. intros k q Hk Hj. destruct (decide (k = i)) as [->|Hne]; [apply H2; exists c, q; auto|]. destruct (Hf k Hne) as [E1 E2].
    rewrite E1 in Hk. rewrite E2 in Hj. exact (B _ _ Hk Hj).
Qed.
Definition actor (a : mact) : nat := match a with MCall i _ | MRun i | MDial i _ | MSend i | MRecv i | MPut i => i end.
Definition whose (x : mevent) : nat := match x with MDid i _ _ _ _ => i | MReturned i _ _ => i end.
Lemma others_calls a j : j <> actor a -> calls j [a] = [].
Proof. intros H. destruct a; try reflexivity. cbn. rewrite bool_decide_false by exact H. reflexivity. Qed.
Lemma others_results i j l : j <> i -> Forall (fun x => whose x = i) l -> results j l = [] /\ returns j l = [].
Proof.
  intros H. induction 1 as [|x l Hx Hl [IH1 IH2]]; [auto|]. destruct x as [k q c v e|k v e]; cbn in Hx |- *; subst k; rewrite bool_decide_false by exact H; auto.
Qed.
(** The part of the invariant that is not about connections. *)
Lemma minv_frame o l x r a r1 e1 : minv o l x r -> m_opt r1 = o -> pinv (m_pool r1) -> p_cap (m_pool r1) = p_cap (m_pool r) -> p_next (m_pool r1) = p_size (m_pool r1) ->
  (forall j, j <> actor a -> p_th (m_pool r1) !! j = p_th (m_pool r) !! j /\ m_job r1 !! j = m_job r !! j) -> Forall (fun x => whose x = actor a) e1 ->
  job_ok (p_th (m_pool r1) !! actor a) (m_job r1 !! actor a) ->
  tally (m_job r1 !! actor a) (calls (actor a) l ++ calls (actor a) [a]) (results (actor a) x ++ results (actor a) e1) (returns (actor a) x ++ returns (actor a) e1) ->
  (forall c, (p_next (m_pool r1) <= c)%nat -> m_conn r1 !! c = None /\ did c (x ++ e1) = []) ->
  (forall c, (c < p_next (m_pool r1))%nat -> exists cn, m_conn r1 !! c = Some cn) ->
  (forall c cn, m_conn r1 !! c = Some cn -> conn_ok o (l ++ [a]) (x ++ e1) r1 c cn) ->
  minv o (l ++ [a]) (x ++ e1) r1.
Proof.
  intros [I1 I2 I3 I4 I5 I6 I7 I8 I9] H1 H2 H3 H4 Hf He Hj Ht H7 H8 H9. split; auto.
  - congruence.
  - intros i. destruct (decide (i = actor a)) as [->|Hne]; [exact Hj|]. destruct (Hf i Hne) as [-> ->]. apply I5.
  - intros i. rewrite calls_app, results_app, returns_app. destruct (decide (i = actor a)) as [->|Hne]; [exact Ht|].
    destruct (Hf i Hne) as [_ ->]. rewrite others_calls by exact Hne. destruct (others_results _ _ _ Hne He) as [-> ->]. rewrite !app_nil_r. apply I6.
Qed.
(** A step that touches no connection. *)
Lemma minv_quiet o l x r a r1 e1 : minv o l x r -> m_opt r1 = o -> m_conn r1 = m_conn r -> pinv (m_pool r1) -> p_cap (m_pool r1) = p_cap (m_pool r) ->
  p_next (m_pool r1) = p_next (m_pool r) -> p_size (m_pool r1) = p_size (m_pool r) ->
  (forall j, j <> actor a -> p_th (m_pool r1) !! j = p_th (m_pool r) !! j /\ m_job r1 !! j = m_job r !! j) -> Forall (fun x => whose x = actor a) e1 ->
  (forall c, did c e1 = []) -> ~ sent r (actor a) -> ~ sent r1 (actor a) ->
  job_ok (p_th (m_pool r1) !! actor a) (m_job r1 !! actor a) ->
  tally (m_job r1 !! actor a) (calls (actor a) l ++ calls (actor a) [a]) (results (actor a) x ++ results (actor a) e1) (returns (actor a) x ++ returns (actor a) e1) ->
  minv o (l ++ [a]) (x ++ e1) r1.
Proof.
  intros HI H1 H2 H3 H4 H5 H6 Hf He Hd S1 S2 Hj Ht. apply (minv_frame o l x r a r1 e1 HI); auto.
  - rewrite H5, H6. apply (mi_size _ _ _ _ HI).
  - intros c. rewrite H5, H2, did_app, Hd, app_nil_r. apply (mi_fresh _ _ _ _ HI).
  - intros c. rewrite H5, H2. apply (mi_conn _ _ _ _ HI).
  - intros c cn. rewrite H2. intros Hc. destruct (mi_conns _ _ _ _ HI c cn Hc) as (i & cs & c0 & cn' & b & A1 & A2 & A3 & A4 & A5 & A6).
    exists i, cs, c0, cn', b. split; [apply in_or_app; auto|]. split; [exact A2|]. rewrite did_app, Hd, app_nil_r. split; [exact A3|]. split; [exact A4|]. split; [exact A5|].
    exact (in_flight_frame r r1 (actor a) c b Hf S1 S2 A6).
Qed.
Lemma recv_exec q (cn cn' : conn) : cn_in cn = cn_in cn' -> exec q cn' = match recv (cn_in cn) with
  | ROk m s => CRet (fst (decode (kind_of q) m)) (snd (decode (kind_of q) m)) (Conn (cn_out cn' ++ send (convert_to_message (request q))) s)
  | RErr e s => CRet (zero_val (kind_of q)) (Some (XRecv e)) (Conn (cn_out cn' ++ send (convert_to_message (request q))) s)
  | _ => CPanic
  end.
Proof. intros ->. unfold exec. destruct (recv (cn_in cn')) as [m s|e s| |]; auto. destruct (decode (kind_of q) m); auto. Qed.
(** A reply (or none) has arrived for the goroutine that holds [c]. *)
Lemma minv_recv o l x r i c q cn v e s cn2 : minv o l x r -> p_th (m_pool r) !! i = Some (Lent c) -> m_job r !! i = Some (JSent q) -> m_conn r !! c = Some cn ->
  (forall cn', cn_in cn = cn_in cn' -> exec q cn' = CRet v e (Conn (cn_out cn' ++ send (convert_to_message (request q))) s)) -> cn2 = Conn (cn_out cn) s ->
  minv o (l ++ [MRecv i]) (x ++ [MDid i q (Some c) v e]) (set_conn c cn2 (<[i := JRet v e]> (m_job r)) r).
Proof.
  intros HI Ei Ej Ec Hx ->. pose proof (lent_bound _ _ _ (mi_pool _ _ _ _ HI) Ei) as Hb.
  apply (minv_frame o l x r); cbn [actor set_conn m_opt m_pool m_conn m_job]; auto; try (exact (mi_size _ _ _ _ HI)); try (exact (mi_opt _ _ _ _ HI)); try (exact (mi_pool _ _ _ _ HI)).
  - intros j Hj. rewrite lookup_insert_ne by auto. auto.
  - rewrite Ei, lookup_insert. cbn. discriminate.
  - rewrite lookup_insert. pose proof (mi_tally _ _ _ _ HI i) as Ht. rewrite Ej in Ht. cbn in Ht |- *. rewrite bool_decide_true by reflexivity.
    destruct Ht as [H1 H2]. rewrite !map_app, !app_nil_r. cbn. split; [exact H1|]. rewrite H2. reflexivity.
  - intros d Hd. destruct (mi_fresh _ _ _ _ HI d Hd) as [H1 H2]. rewrite lookup_insert_ne by lia. rewrite did_app, H2. cbn. rewrite bool_decide_false by lia. auto.
  - intros d Hd. destruct (decide (c = d)) as [<-|Hne]; [rewrite lookup_insert; eauto|rewrite lookup_insert_ne by exact Hne; apply (mi_conn _ _ _ _ HI d Hd)].
  - intros d cn3 H3. unfold conn_ok. rewrite did_app. cbn [did omap list_omap].
    destruct (decide (c = d)) as [<-|Hne].
    + rewrite lookup_insert in H3. injection H3 as <-. rewrite bool_decide_true by reflexivity.
      destruct (mi_conns _ _ _ _ HI c cn Ec) as (k & cs & c0 & cn' & b & A1 & A2 & A3 & A4 & A5 & A6).
      assert (Hbb : b = send (convert_to_message (request q))).
      { destruct A6 as [(j & q' & B1 & B2 & B3)|(_ & B)]; [|destruct (B _ _ Ei Ej)]. rewrite (lent_unique _ _ _ _ (mi_pool _ _ _ _ HI) B1 Ei), Ej in B2. injection B2 as ->. exact B3. }
      exists k, cs, c0, (Conn (cn_out cn' ++ b) s), []. split; [apply in_or_app; auto|]. split; [exact A2|].
      split; [rewrite !map_app; cbn [map fst snd]; apply (exec_all_app _ _ _ _ cn'); [exact A3|rewrite Hbb; apply Hx, A4]|]. cbn [cn_in cn_out]. split; [reflexivity|]. split; [rewrite app_nil_r; exact A5|].
      right. split; [reflexivity|]. cbn [set_conn m_pool m_job]. intros j q' Hj. rewrite (lent_unique _ _ _ _ (mi_pool _ _ _ _ HI) Hj Ei), lookup_insert. discriminate.
    + rewrite lookup_insert_ne in H3 by exact Hne. rewrite bool_decide_false by auto.
      destruct (mi_conns _ _ _ _ HI d cn3 H3) as (k & cs & c0 & cn' & b & A1 & A2 & A3 & A4 & A5 & A6). exists k, cs, c0, cn', b.
      split; [apply in_or_app; auto|]. split; [exact A2|]. rewrite app_nil_r. split; [exact A3|]. split; [exact A4|]. split; [exact A5|].
      destruct A6 as [(j & q' & B1 & B2 & B3)|(B1 & B2)].
      * left. exists j, q'. cbn [set_conn m_pool m_job]. split; [exact B1|]. rewrite lookup_insert_ne; [auto|]. intros <-. congruence.
      * right. split; [exact B1|]. cbn [set_conn m_pool m_job]. intros j q' Hj. destruct (decide (i = j)) as [<-|Hij]; [rewrite lookup_insert; discriminate|].
        rewrite lookup_insert_ne by exact Hij. apply B2, Hj.
Qed.
Lemma minv_send o l x r i c q cn : minv o l x r -> p_th (m_pool r) !! i = Some (Lent c) -> m_job r !! i = Some (JGet q) -> m_conn r !! c = Some cn ->
  minv o (l ++ [MSend i]) (x ++ []) (set_conn c (Conn (cn_out cn ++ send (convert_to_message (request q))) (cn_in cn)) (<[i := JSent q]> (m_job r)) r).
Proof.
  intros HI Ei Ej Ec. pose proof (lent_bound _ _ _ (mi_pool _ _ _ _ HI) Ei) as Hb.
  apply (minv_frame o l x r); cbn [actor set_conn m_opt m_pool m_conn m_job]; auto; try (exact (mi_size _ _ _ _ HI)); try (exact (mi_opt _ _ _ _ HI)); try (exact (mi_pool _ _ _ _ HI)).
  - intros j Hj. rewrite lookup_insert_ne by auto. auto.
  - rewrite Ei, lookup_insert. cbn. discriminate.
  - rewrite lookup_insert. pose proof (mi_tally _ _ _ _ HI i) as Ht. rewrite Ej in Ht. cbn in Ht |- *. rewrite !app_nil_r. exact Ht.
  - intros d Hd. destruct (mi_fresh _ _ _ _ HI d Hd) as [H1 H2]. rewrite lookup_insert_ne by lia. rewrite app_nil_r. auto.
  - intros d Hd. destruct (decide (c = d)) as [<-|Hne]; [rewrite lookup_insert; eauto|rewrite lookup_insert_ne by exact Hne; apply (mi_conn _ _ _ _ HI d Hd)].
  - intros d cn3 H3. unfold conn_ok. rewrite app_nil_r. destruct (decide (c = d)) as [<-|Hne].
    + rewrite lookup_insert in H3. injection H3 as <-.
      destruct (mi_conns _ _ _ _ HI c cn Ec) as (k & cs & c0 & cn' & b & A1 & A2 & A3 & A4 & A5 & A6).
      assert (Hbb : b = []).
      { destruct A6 as [(j & q' & B1 & B2 & B3)|(B & _)]; [|exact B]. rewrite (lent_unique _ _ _ _ (mi_pool _ _ _ _ HI) B1 Ei), Ej in B2. discriminate. }
      exists k, cs, c0, cn', (send (convert_to_message (request q))). split; [apply in_or_app; auto|]. split; [exact A2|]. split; [exact A3|]. cbn [cn_in cn_out]. split; [exact A4|].
      split; [rewrite A5, Hbb, app_nil_r; reflexivity|]. left. exists i, q. cbn [set_conn m_pool m_job]. rewrite lookup_insert. auto.
    + rewrite lookup_insert_ne in H3 by exact Hne.
      destruct (mi_conns _ _ _ _ HI d cn3 H3) as (k & cs & c0 & cn' & b & A1 & A2 & A3 & A4 & A5 & A6). exists k, cs, c0, cn', b.
      split; [apply in_or_app; auto|]. split; [exact A2|]. split; [exact A3|]. split; [exact A4|]. split; [exact A5|].
      destruct A6 as [(j & q' & B1 & B2 & B3)|(B1 & B2)].
      * left. exists j, q'. cbn [set_conn m_pool m_job]. split; [exact B1|]. rewrite lookup_insert_ne; [auto|]. intros <-. congruence.
      * right. split; [exact B1|]. cbn [set_conn m_pool m_job]. intros j q' Hj. destruct (decide (i = j)) as [<-|Hij]; [congruence|].
        rewrite lookup_insert_ne by exact Hij. apply B2, Hj.
Qed.
Lemma minv_open o l x r i cs cn p' : minv o l x r -> m_dead r = false -> open_conn (open_requests o) (Conn [] (new_rd cs)) = OOpen cn ->
  pstep (PDialOk i) (m_pool r) = Some (p', []) ->
  minv o (l ++ [MDial i (inr cs)]) (x ++ []) (Remote (m_opt r) p' (<[p_next (m_pool r) := cn]> (m_conn r)) (m_job r) false).
Proof.
  intros HI Hd0 Eo Ep. destruct (pinv_step _ _ _ _ (mi_pool _ _ _ _ HI) Ep) as [HP Hcap]. destruct (pstep_next _ _ _ _ Ep) as [Hn Hs]. pose proof (pstep_th _ _ _ _ Ep) as Hth. cbn in Hth.
  pose proof Ep as Ep'. cbn [pstep] in Ep'. destruct (p_th (m_pool r) !! i) as [[]|] eqn:Ei; try discriminate. injection Ep' as Ep'.
  assert (Ei' : p_th p' !! i = Some (GSend (p_next (m_pool r)))) by (rewrite <- Ep'; cbn; apply lookup_insert). clear Ep'.
  apply (minv_frame o l x r); cbn [actor m_opt m_pool m_conn m_job]; auto; try (exact (mi_size _ _ _ _ HI)); try (exact (mi_opt _ _ _ _ HI)); try (exact (mi_pool _ _ _ _ HI)).
  - rewrite Hn, Hs. f_equal. exact (mi_size _ _ _ _ HI).
  - rewrite Ei'. pose proof (mi_job _ _ _ _ HI i) as Hj. rewrite Ei in Hj. exact Hj.
  - cbn. rewrite !app_nil_r. exact (mi_tally _ _ _ _ HI i).
  - intros d Hd. rewrite app_nil_r, lookup_insert_ne by lia. apply (mi_fresh _ _ _ _ HI). lia.
  - intros d Hd. destruct (decide (p_next (m_pool r) = d)) as [<-|Hne]; [rewrite lookup_insert; eauto|rewrite lookup_insert_ne by exact Hne; apply (mi_conn _ _ _ _ HI d); lia].
  - intros d cn3 H3. unfold conn_ok. rewrite app_nil_r. destruct (decide (p_next (m_pool r) = d)) as [<-|Hne].
    + rewrite lookup_insert in H3. injection H3 as <-. destruct (mi_fresh _ _ _ _ HI (p_next (m_pool r)) ltac:(lia)) as [_ H0].
      exists i, cs, cn, cn, []. split; [apply in_or_app; right; left; reflexivity|]. split; [exact Eo|]. rewrite H0. split; [reflexivity|]. split; [reflexivity|]. split; [rewrite app_nil_r; reflexivity|].
      right. split; [reflexivity|]. cbn [m_pool m_job]. intros j q Hj. exfalso. destruct (decide (j = i)) as [->|Hji]; [congruence|]. rewrite (Hth j Hji) in Hj.
      pose proof (lent_bound _ _ _ (mi_pool _ _ _ _ HI) Hj). lia.
    + rewrite lookup_insert_ne in H3 by exact Hne.
      destruct (mi_conns _ _ _ _ HI d cn3 H3) as (k & cs' & c0 & cn' & b & A1 & A2 & A3 & A4 & A5 & A6). exists k, cs', c0, cn', b.
      split; [apply in_or_app; auto|]. split; [exact A2|]. split; [exact A3|]. split; [exact A4|]. split; [exact A5|].
      eapply (in_flight_frame r _ i); [| | |exact A6]; cbn [m_pool m_job].
      * intros j Hj. split; [apply Hth, Hj|reflexivity].
      * intros (c' & q' & B1 & _). congruence.
      * intros (c' & q' & B1 & _). cbn [m_pool] in B1. congruence.
Qed.
Lemma minv_step o l x r a r1 e1 : minv o l x r -> mstep a r = Some (r1, e1) -> minv o (l ++ [a]) (x ++ e1) r1.
Proof.
  intros HI E. unfold mstep in E. destruct (m_dead r) eqn:Hdead; [discriminate|].
  pose proof (mi_opt _ _ _ _ HI) as Ho. pose proof (mi_pool _ _ _ _ HI) as HP.
  assert (Hdie : forall i, actor a = i -> calls i [a] = [] -> minv o (l ++ [a]) (x ++ []) (die r)).
  { intros i Ha Hc. destruct HI as [I1 I2 I3 I4 I5 I6 I7 I8 I9]. split; cbn [die m_opt m_pool m_conn m_job]; auto; rewrite ?app_nil_r; auto.
    - intros j. rewrite calls_app. destruct (decide (j = i)) as [->|Hne]; [rewrite Hc|rewrite others_calls by congruence]; rewrite app_nil_r; apply I6.
    - intros c cn Hc'. destruct (I9 c cn Hc') as (k & cs & c0 & cn' & b & A1 & A2). exists k, cs, c0, cn', b. split; [apply in_or_app; auto|exact A2]. }
  assert (Hfail : forall i y (er : cerr), a = MDial i y -> match pstep (PDialFail i) (m_pool r), m_job r !! i with
      | Some (p, _), Some (JGet q) => Some (set_pool p (delete i (m_job r)) r, [MDid i q None (zero_val (kind_of q)) (Some er); MReturned i (zero_val (kind_of q)) (Some er)])
      | _, _ => None end = Some (r1, e1) -> minv o (l ++ [a]) (x ++ e1) r1).
  { clear E. intros i y er -> E. destruct (pstep (PDialFail i) (m_pool r)) as [[p' ep]|] eqn:Ep; [|discriminate]. destruct (m_job r !! i) as [[q| |]|] eqn:Ej; try discriminate. injection E as <- <-.
    destruct (pinv_step _ _ _ _ HP Ep) as [HP' Hcap]. destruct (pstep_next _ _ _ _ Ep) as [Hn Hs]. pose proof (pstep_th _ _ _ _ Ep) as Hth. cbn in Hth.
    cbn [pstep] in Ep. destruct (p_th (m_pool r) !! i) as [[]|] eqn:Ei; try discriminate. unfold ret in Ep. injection Ep as Ep _.
    assert (Ei' : p_th p' !! i = None) by (rewrite <- Ep; cbn; apply lookup_delete). clear Ep.
    apply (minv_quiet o l x r); cbn [actor set_pool m_opt m_pool m_conn m_job]; auto.
    - intros j Hj. rewrite lookup_delete_ne by auto. auto.
    - intros (c & q' & _ & B). congruence.
    - intros (c & q' & B & _). cbn [set_pool m_pool] in B. congruence.
    - rewrite Ei', lookup_delete. reflexivity.
    - rewrite lookup_delete. pose proof (mi_tally _ _ _ _ HI i) as Ht. rewrite Ej in Ht. cbn in Ht |- *. rewrite !bool_decide_true by reflexivity. destruct Ht as [H1 H2].
      rewrite !map_app. cbn. rewrite app_nil_r, H2. auto. }
  destruct a as [i q|i|i y|i|i|i].
  - destruct (m_job r !! i) as [j|] eqn:Ej; [discriminate|]. destruct (pstep (PGet i) (m_pool r)) as [[p' ep]|] eqn:Ep; [|discriminate]. injection E as <- <-.
    destruct (pinv_step _ _ _ _ HP Ep) as [HP' Hcap]. destruct (pstep_next _ _ _ _ Ep) as [Hn Hs]. pose proof (pstep_th _ _ _ _ Ep) as Hth. cbn in Hth.
    cbn [pstep] in Ep. destruct (p_th (m_pool r) !! i) as [|] eqn:Ei; try discriminate. unfold go in Ep. injection Ep as Ep _.
    assert (Ei' : p_th p' !! i = Some GTry) by (rewrite <- Ep; cbn; apply lookup_insert). clear Ep.
    apply (minv_quiet o l x r); cbn [actor set_pool m_opt m_pool m_conn m_job]; auto.
    + intros j Hj. rewrite lookup_insert_ne by auto. auto.
    + intros (c & q' & _ & B). congruence.
    + intros (c & q' & B & _). cbn [set_pool m_pool] in B. congruence.
    + rewrite Ei', lookup_insert. cbn. eauto.
    + rewrite lookup_insert. pose proof (mi_tally _ _ _ _ HI i) as Ht. rewrite Ej in Ht. cbn in Ht |- *. rewrite bool_decide_true by reflexivity. rewrite !app_nil_r. destruct Ht as [-> H2]. auto.
  - destruct (pstep (PRun i) (m_pool r)) as [[p' ep]|] eqn:Ep; [|discriminate].
    destruct (pinv_step _ _ _ _ HP Ep) as [HP' Hcap]. destruct (pstep_next _ _ _ _ Ep) as [Hn Hs]. pose proof (pstep_th _ _ _ _ Ep) as Hth. cbn in Hth.
    pose proof (mi_job _ _ _ _ HI i) as Hj. pose proof (mi_tally _ _ _ _ HI i) as Ht.
    assert (Hcases : (e1 = [] /\ r1 = set_pool p' (m_job r) r /\ exists q, m_job r !! i = Some (JGet q) /\ match p_th p' !! i with Some (GTry | GLock | GCheck | GDial | GSend _ | GUnlock | GWait | Lent _) => True | _ => False end) \/
      (exists c v e, p_th (m_pool r) !! i = Some (PSend c) /\ m_job r !! i = Some (JRet v e) /\ p_th p' !! i = None /\ e1 = [MReturned i v e] /\ r1 = set_pool p' (delete i (m_job r)) r)).
    { cbn [pstep] in Ep. destruct (p_th (m_pool r) !! i) as [pc|] eqn:Ei; [|discriminate].
      destruct pc as [| | | |g| | |g|g| |g]; cbn [job_ok] in Hj; try discriminate; try contradiction; unfold go, ret, set_th, set_chan, set_lock in Ep; cbn [p_cap p_size p_chan p_lock p_next p_th] in Ep.
      7: { right. destruct Hj as (v & er & Hj). destruct (Nat.ltb _ _); [|discriminate]. injection Ep as <- <-. rewrite Hj in E. injection E as <- <-.
           exists g, v, er. cbn [p_th]. rewrite lookup_delete. auto. }
      all: left; destruct Hj as (q & Hj); repeat (match type of Ep with context[match ?z with _ => _ end] => destruct z eqn:?; try discriminate end); injection Ep as <- <-; injection E as <- <-; (split; [reflexivity|]; split; [reflexivity|]; exists q; split; [exact Hj|]; cbn [p_th]; rewrite lookup_insert; exact I). }
    destruct Hcases as [(-> & -> & q & Ej & Hpc)|(c & v & er & Ei & Ej & Ei' & -> & ->)].
    + apply (minv_quiet o l x r); cbn [actor set_pool m_opt m_pool m_conn m_job]; auto.
      * intros (c & q' & _ & B). congruence.
      * intros (c & q' & _ & B). cbn [set_pool m_job] in B. congruence.
      * rewrite Ej in Hj |- *. destruct (p_th p' !! i) as [[]|]; cbn; try contradiction; eauto; discriminate.
      * cbn. rewrite !app_nil_r. exact Ht.
    + apply (minv_quiet o l x r); cbn [actor set_pool m_opt m_pool m_conn m_job]; auto.
      * intros j Hne. rewrite lookup_delete_ne by auto. auto.
      * intros (c' & q' & _ & B). congruence.
      * intros (c' & q' & B & _). cbn [set_pool m_pool] in B. congruence.
      * rewrite Ei', lookup_delete. reflexivity.
      * rewrite lookup_delete. rewrite Ej in Ht. cbn in Ht |- *. rewrite bool_decide_true by reflexivity. rewrite !app_nil_r. exact Ht.
  - destruct y as [t|cs]; [eapply Hfail; eauto|]. rewrite Ho in E. destruct (open_conn (open_requests o) (Conn [] (new_rd cs))) as [cn|er|] eqn:Eo; [|eapply Hfail; eauto|].
    + destruct (pstep (PDialOk i) (m_pool r)) as [[p' ep]|] eqn:Ep; [|discriminate]. injection E as <- <-.
      assert (ep = []) as -> by (cbn [pstep] in Ep; repeat (case_match; try discriminate); injection Ep as _ <-; reflexivity).
      rewrite <- Ho. apply minv_open; [rewrite Ho; exact HI|exact Hdead|rewrite Ho; exact Eo|exact Ep].
    + destruct (p_th (m_pool r) !! i) as [[]|]; try discriminate. injection E as <- <-. apply (Hdie i); reflexivity.
  - destruct (p_th (m_pool r) !! i) as [[]|] eqn:Ei; try discriminate. destruct (m_job r !! i) as [[q| |]|] eqn:Ej; try discriminate. destruct (m_conn r !! c) as [cn|] eqn:Ec; [|discriminate].
    injection E as <- <-. apply minv_send; assumption.
  - destruct (p_th (m_pool r) !! i) as [[]|] eqn:Ei; try discriminate. destruct (m_job r !! i) as [[|q|]|] eqn:Ej; try discriminate. destruct (m_conn r !! c) as [cn|] eqn:Ec; [|discriminate].
    destruct (recv (cn_in cn)) as [m s|er s| |] eqn:Er.
    + destruct (decode (kind_of q) m) as [v e] eqn:Ed. injection E as <- <-. eapply minv_recv; eauto. intros cn' Hin. rewrite (recv_exec q cn cn' Hin), Er, Ed. reflexivity.
    + injection E as <- <-. eapply minv_recv; eauto. intros cn' Hin. rewrite (recv_exec q cn cn' Hin), Er. reflexivity.
    + injection E as <- <-. apply (Hdie i); reflexivity.
    + injection E as <- <-. apply (Hdie i); reflexivity.
  - destruct (m_job r !! i) as [[| |v er]|] eqn:Ej; try discriminate. destruct (pstep (PRelease i) (m_pool r)) as [[p' ep]|] eqn:Ep; [|discriminate]. injection E as <- <-.
    destruct (pinv_step _ _ _ _ HP Ep) as [HP' Hcap]. destruct (pstep_next _ _ _ _ Ep) as [Hn Hs]. pose proof (pstep_th _ _ _ _ Ep) as Hth. cbn in Hth.
    cbn [pstep] in Ep. destruct (p_th (m_pool r) !! i) as [[]|] eqn:Ei; try discriminate. unfold go in Ep. injection Ep as Ep _.
    assert (Ei' : p_th p' !! i = Some (PSend c)) by (rewrite <- Ep; cbn; apply lookup_insert). clear Ep.
    apply (minv_quiet o l x r); cbn [actor set_pool m_opt m_pool m_conn m_job]; auto.
    + intros (c' & q' & _ & B). congruence.
    + intros (c' & q' & B & _). cbn [set_pool m_pool] in B. congruence.
    + rewrite Ei', Ej. cbn. eauto.
    + cbn. rewrite !app_nil_r. exact (mi_tally _ _ _ _ HI i).
Qed.
Lemma minv_init o : minv o [] [] (new_client o).
Proof.
  split; cbn [new_client m_opt m_pool m_conn m_job]; try reflexivity.
  - apply pinv_init.
  - intros i. rewrite lookup_empty. cbn. auto.
  - intros c _. rewrite lookup_empty. auto.
  - intros c Hc. cbn in Hc. lia.
  - intros c cn Hc. rewrite lookup_empty in Hc. discriminate.
Qed.
Lemma minv_exec o l r e : mexec l (new_client o) = Some (r, e) -> minv o l e r.
Proof. intros E. exact (mexec_inv (minv o) (new_client o) [] [] l r e (minv_init o) (minv_step o) E). Qed.

(** ** C122 *)
(** Goroutines share connections, and yet on every connection the commands that got a result there are, in order, what the same
    commands give when executed one after the other by a single caller on that connection ... *)
Theorem C122_one_at_a_time o l r e : mexec l (new_client o) = Some (r, e) -> forall c cn, m_conn r !! c = Some cn ->
  exists i cs c0 cn', In (MDial i (inr cs)) l /\ open_conn (open_requests o) (Conn [] (new_rd cs)) = OOpen c0 /\
    exec_all (map fst (did c e)) c0 = Some (map snd (did c e), cn') /\ cn_in cn = cn_in cn'.
Proof.
  intros E c cn Hc. destruct (mi_conns _ _ _ _ (minv_exec _ _ _ _ E) c cn Hc) as (i & cs & c0 & cn' & b & A1 & A2 & A3 & A4 & _).
  exists i, cs, c0, cn'. auto.
Qed.
(** ... every command with a result got it on an open connection, or none could be opened ... *)
Theorem C122_where o l r e : mexec l (new_client o) = Some (r, e) -> forall i q c v er, In (MDid i q (Some c) v er) e -> exists cn, m_conn r !! c = Some cn.
Proof.
  intros E i q c v er Hin. pose proof (minv_exec _ _ _ _ E) as HI. destruct (decide (c < p_next (m_pool r))%nat) as [Hlt|Hge]; [apply (mi_conn _ _ _ _ HI c Hlt)|].
  destruct (mi_fresh _ _ _ _ HI c ltac:(lia)) as [_ Hd]. exfalso. apply elem_of_list_In in Hin. assert (Hx : (q, (v, er)) ∈ did c e); [|rewrite Hd in Hx; inversion Hx].
  apply elem_of_list_omap. exists (MDid i q (Some c) v er). split; [exact Hin|]. rewrite bool_decide_true; reflexivity.
Qed.
(** ... and every method returns the result of its own command: the i-th return of a goroutine is the result of its i-th call. *)
Theorem C122_returns_its_result o l r e : mexec l (new_client o) = Some (r, e) -> forall i,
  exists qs vs, calls i l = map fst (results i e) ++ qs /\ map snd (results i e) = returns i e ++ vs /\ (length qs + length vs <= 1)%nat.
Proof.
  intros E i. pose proof (mi_tally _ _ _ _ (minv_exec _ _ _ _ E) i) as Ht.
  destruct (m_job r !! i) as [[q|q|v er]|]; destruct Ht as [H1 H2].
  - exists [q], []. rewrite app_nil_r. auto.
  - exists [q], []. rewrite app_nil_r. auto.
  - exists [], [(v, er)]. rewrite app_nil_r. auto.
  - exists [], []. rewrite !app_nil_r. auto.
Qed.
(** With replies that one read delivers whole (C71): each command gets its own reply. *)
Lemma open_steady rs : forall ms rest s out, length ms = length rs -> Forall steady ms -> wf s -> bytes_left s = concat (map serialize ms) ++ rest ->
  match open_conn rs (Conn out s) with
  | OOpen c => bytes_left (cn_in c) = rest /\ wf (cn_in c)
  | OFail _ => True
  | OCrash => False
  end.
Proof.
  induction rs as [|q rs IH]; intros [|m ms] rest s out Hl Hs Hw E; try discriminate; [split; assumption|].
  cbn [map concat] in E. rewrite <- app_assoc in E. inversion_clear Hs as [|? ? Hm Hs'].
  destruct (read_steady m Hm (S (length (bytes_left s))) s _ E Hw) as (s1 & H1 & H2 & W1); [rewrite E, app_length; lia|].
  cbn [open_conn cn_in cn_out]. unfold recv. rewrite H1. destruct (snd (decode KString m)); [exact I|]. apply (IH ms rest); auto.
Qed.
Lemma exec_all_steady qs : forall ms rest s out, length ms = length qs -> Forall steady ms -> wf s -> bytes_left s = concat (map serialize ms) ++ rest ->
  exists c, exec_all qs (Conn out s) = Some (zip_with (fun q m => decode (kind_of q) m) qs ms, c) /\ bytes_left (cn_in c) = rest.
Proof.
  induction qs as [|q qs IH]; intros [|m ms] rest s out Hl Hs Hw E; try discriminate; [exists (Conn out s); split; [reflexivity|exact E]|].
  cbn [map concat] in E. rewrite <- app_assoc in E. inversion_clear Hs as [|? ? Hm Hs'].
  destruct (read_steady m Hm (S (length (bytes_left s))) s _ E Hw) as (s1 & H1 & H2 & W1); [rewrite E, app_length; lia|].
  destruct (IH ms rest s1 (out ++ send (convert_to_message (request q))) ltac:(cbn in Hl; lia) Hs' W1 H2) as (c & Hc & Hr). exists c. split; [|exact Hr].
  cbn [exec_all]. rewrite (exec_reply q (Conn out s) m s1 H1). cbn [cn_out]. rewrite Hc. cbn [zip_with]. destruct (decode (kind_of q) m). reflexivity.
Qed.
Lemma exec_all_len qs : forall c rs c', exec_all qs c = Some (rs, c') -> length rs = length qs.
Proof.
  induction qs as [|q qs IH]; intros c rs c' E; cbn in E; [injection E as <- _; reflexivity|]. destruct (exec q c) as [v e c1|]; [|discriminate].
  destruct (exec_all qs c1) as [[l c2]|] eqn:E1; [|discriminate]. injection E as <- _. cbn. f_equal. eauto.
Qed.
Theorem C122_own_reply o l r e : mexec l (new_client o) = Some (r, e) ->
  (forall i cs, In (MDial i (inr cs)) l -> exists ms, Forall steady ms /\ concat cs = concat (map serialize ms) /\
     (length (open_requests o) + length e <= length ms)%nat) ->
  forall c cn, m_conn r !! c = Some cn -> exists i cs ms, In (MDial i (inr cs)) l /\ concat cs = concat (map serialize ms) /\ Forall steady ms /\
    map snd (did c e) = zip_with (fun q m => decode (kind_of q) m) (map fst (did c e)) (take (length (did c e)) (drop (length (open_requests o)) ms)).
Proof.
  intros E Hserver c cn Hc. destruct (C122_one_at_a_time _ _ _ _ E c cn Hc) as (i & cs & c0 & cn' & H1 & H2 & H3 & _).
  destruct (Hserver i cs H1) as (ms & Hs & Hcs & Hlen). exists i, cs, ms. split; [exact H1|]. split; [exact Hcs|]. split; [exact Hs|].
  assert (Hd : (length (did c e) <= length e)%nat).
  { clear. induction e as [|x e IH]; [cbn; lia|]. cbn. repeat case_match; cbn; unfold did in IH; lia. }
  set (k := length (open_requests o)) in *. set (n := length (did c e)) in *.
  assert (Hsplit : ms = take k ms ++ take n (drop k ms) ++ drop n (drop k ms)) by (rewrite !take_drop; reflexivity).
  assert (W : wf (new_rd cs)) by (unfold wf; cbn; lia).
  assert (B : bytes_left (new_rd cs) = concat (map serialize (take k ms)) ++ concat (map serialize (take n (drop k ms))) ++ concat (map serialize (drop n (drop k ms)))).
  { change (bytes_left (new_rd cs)) with (concat cs). rewrite Hcs, Hsplit at 1. rewrite !map_app, !concat_app. reflexivity. }
  pose proof (open_steady (open_requests o) (take k ms) (concat (map serialize (take n (drop k ms))) ++ concat (map serialize (drop n (drop k ms)))) (new_rd cs) [] ltac:(rewrite take_length; unfold k in *; lia) ltac:(apply Forall_take; exact Hs) W B) as Ho.
  rewrite H2 in Ho. destruct Ho as [B0 W0]. destruct c0 as [out s].
  destruct (exec_all_steady (map fst (did c e)) (take n (drop k ms)) (concat (map serialize (drop n (drop k ms)))) s out) with (4 := B0) as (c2 & Hx & _); [|apply Forall_take, Forall_drop; exact Hs|exact W0|].
  - rewrite map_length, take_length, drop_length. fold n. lia.
  - rewrite H3 in Hx. injection Hx as Hx _. exact Hx.
Qed.

Definition call (i : nat) (q : rcall) : list mact := [MCall i q; MRun i].
Definition connect (i : nat) (cs : list gostr) : list mact := [MRun i; MRun i; MDial i (inr cs); MRun i; MRun i; MRun i].
Definition done (i : nat) : list mact := [MSend i; MRecv i; MPut i; MRun i].
Example C122_nonvacuous :
  match mexec (call 1 (QGet (bs "a")) ++ connect 1 [bs "$1" ++ crlf ++ bs "x" ++ crlf ++ bs ":7" ++ crlf] ++ call 2 (QIncr (bs "n")) ++ [MSend 1; MRun 2; MRun 2; MRun 2] ++
               [MRecv 1; MPut 1; MRun 1] ++ [MRun 2] ++ done 2) (new_client (ROpt 1 0 [])) with
  | Some (r, e) => Some (did 0 e, e)
  | None => None
  end = Some ([(QGet (bs "a"), (VStr (bs "x"), None)); (QIncr (bs "n"), (VInt 7, None))],
    [MDid 1 (QGet (bs "a")) (Some 0%nat) (VStr (bs "x")) None; MReturned 1 (VStr (bs "x")) None; MDid 2 (QIncr (bs "n")) (Some 0%nat) (VInt 7) None; MReturned 2 (VInt 7) None]).
Proof. vm_compute. reflexivity. Qed.
Example C122_own_reply_nonvacuous : Forall steady [MBulk (bs "x"); MInt 7] /\ [bs "$1" ++ crlf ++ bs "x" ++ crlf ++ bs ":7" ++ crlf] = [concat (map serialize [MBulk (bs "x"); MInt 7])].
Proof. split; [repeat constructor; cbn; try lia; vm_compute; auto; intros H; inversion H|vm_compute; reflexivity]. Qed.

(** ** C123 *)
Definition agrees (m : msg) : Prop := m <> MNil /\ forall t, m <> MError t.
Lemma open_conn_greets rs : forall c c0, open_conn rs c = OOpen c0 ->
  cn_out c0 = cn_out c ++ concat (map (fun x => send (convert_to_message x)) rs) /\
  exists ms, length ms = length rs /\ recv_n (length rs) (cn_in c) = ROk ms (cn_in c0) /\ Forall agrees ms.
Proof.
  induction rs as [|q rs IH]; intros c c0 E; cbn [open_conn] in E.
  - injection E as <-. split; [cbn; rewrite app_nil_r; reflexivity|]. exists []. split; [reflexivity|]. split; [reflexivity|constructor].
  - destruct (recv (cn_in c)) as [m s|er s| |] eqn:Er; try discriminate. destruct (snd (decode KString m)) eqn:Ed; [discriminate|].
    destruct (IH _ _ E) as (H1 & ms & H2 & H3 & H4). cbn [cn_out cn_in] in *. split; [rewrite H1; cbn [map concat]; rewrite app_assoc; reflexivity|].
    exists (m :: ms). split; [cbn; congruence|]. split; [cbn [length recv_n]; rewrite Er; cbn [rbind]; rewrite H3; reflexivity|].
    constructor; [|exact H4]. destruct m; try discriminate Ed; split; congruence.
Qed.
Lemma exec_all_out qs : forall c rs c', exec_all qs c = Some (rs, c') -> cn_out c' = cn_out c ++ concat (map (fun q => send (convert_to_message (request q))) qs).
Proof.
  induction qs as [|q qs IH]; intros c rs c' E; cbn [exec_all] in E; [injection E as _ <-; cbn; rewrite app_nil_r; reflexivity|].
  destruct (exec q c) as [v e c1|] eqn:E1; [|discriminate]. destruct (exec_all qs c1) as [[l c2]|] eqn:E2; [|discriminate]. injection E as _ <-.
  rewrite (IH _ _ _ E2). cbn [map concat]. rewrite app_assoc. f_equal. unfold exec in E1. destruct (recv (cn_in c)) as [m s|er s| |]; try discriminate.
  - destruct (decode (kind_of q) m). injection E1 as _ _ <-. reflexivity.
  - injection E1 as _ _ <-. reflexivity.
Qed.
(** Whatever a connection of the pool has carried begins with the password, if there is one, and the database, if it is
    positive, and the server has answered neither with an error. Then come the commands in the order of their results, and at most one more. *)
Theorem C123_greets_first o l r e : mexec l (new_client o) = Some (r, e) -> forall c cn, m_conn r !! c = Some cn ->
  exists au se cmds pend, cn_out cn = au ++ se ++ concat cmds ++ pend /\
    (if bool_decide (o_password o = []) then au = [] else wire (MArr [MBulk (bs "auth"); MBulk (o_password o)]) au) /\
    (if 0 <? o_database o then wire (MArr [MBulk (bs "select"); MBulk (itoa (o_database o))]) se else se = []) /\
    Forall2 (fun x b => wire (MArr (map MBulk (request (fst x)))) b) (did c e) cmds /\
    (pend = [] \/ exists i q, p_th (m_pool r) !! i = Some (Lent c) /\ wire (MArr (map MBulk (request q))) pend) /\
    exists i cs ms s, In (MDial i (inr cs)) l /\ Forall agrees ms /\ recv_n (length ms) (new_rd cs) = ROk ms s /\
      Z.of_nat (length ms) = (if bool_decide (o_password o = []) then 0 else 1) + (if 0 <? o_database o then 1 else 0).
Proof.
  intros E c cn Hc. destruct (mi_conns _ _ _ _ (minv_exec _ _ _ _ E) c cn Hc) as (i & cs & c0 & cn' & b & A1 & A2 & A3 & A4 & A5 & A6).
  destruct (open_conn_greets _ _ _ A2) as (G1 & ms & G2 & G3 & G4). cbn [cn_out cn_in] in *. pose proof (exec_all_out _ _ _ _ A3) as X.
  assert (Hw : forall args, wire (MArr (map MBulk args)) (send (convert_to_message args))) by (intros args; apply (proj1 (C55_request_bytes args []))).
  set (f := fun x => send (convert_to_message x)) in *.
  exists (if bool_decide (o_password o = []) then [] else f [bs "auth"; o_password o]), (if 0 <? o_database o then f [bs "select"; itoa (o_database o)] else []),
    (map (fun q => f (request q)) (map fst (did c e))), b. split; [|split; [|split; [|split; [|split]]]].
  - rewrite A5, X, G1, app_nil_l. unfold open_requests. rewrite <- !app_assoc. destruct (bool_decide _), (_ <? _); cbn [map concat app]; rewrite ?app_nil_r, <- ?app_assoc; reflexivity.
  - destruct (bool_decide _); [reflexivity|]. apply (Hw [_; _]).
  - destruct (_ <? _); [|reflexivity]. apply (Hw [_; _]).
  - clear. induction (did c e) as [|x d IH]; [constructor|]. cbn [map]. constructor; [|exact IH]. apply (proj1 (C55_request_bytes (request (fst x)) [])).
  - destruct A6 as [(j & q & B1 & _ & ->)|(-> & _)]; [right; exists j, q; split; [exact B1|apply Hw]|left; reflexivity].
  - exists i, cs, ms, (cn_in c0). split; [exact A1|]. split; [exact G4|]. split; [rewrite G2; exact G3|]. rewrite G2. unfold open_requests.
    destruct (bool_decide _), (_ <? _); reflexivity.
Qed.
(** A greeting answered with an error: the call returns that error, the connection does not join the pool (and no
    other will, C74). *)
Lemma open_conn_refuses rs : forall ms c s s2 t, recv_n (length ms) (cn_in c) = ROk ms s -> (length ms < length rs)%nat -> Forall agrees ms ->
  recv s = ROk (MError t) s2 -> open_conn rs c = OFail (XText t).
Proof.
  induction rs as [|q rs IH]; intros [|m ms] c s s2 t E Hl Ha E2; cbn [length] in Hl; try lia; cbn [open_conn length recv_n] in *.
  - injection E as <-. rewrite E2. reflexivity.
  - destruct (recv (cn_in c)) as [m1 s1| | |]; try discriminate. cbn [rbind] in E. destruct (recv_n (length ms) s1) as [ms1 s3| | |] eqn:E1; try discriminate.
    cbn [rbind] in E. injection E as -> -> ->. apply Forall_cons_1 in Ha as [[H1 H2] Ha].
    assert (Hd : snd (decode KString m) = None) by (destruct m; try reflexivity; [congruence|destruct (H2 _ eq_refl)]).
    rewrite Hd. eapply IH; [exact E1|lia|exact Ha|exact E2].
Qed.
Theorem C123_refused o l r e i cs r' e' ms s s2 t : mexec l (new_client o) = Some (r, e) -> mstep (MDial i (inr cs)) r = Some (r', e') ->
  recv_n (length ms) (new_rd cs) = ROk ms s -> Forall agrees ms -> recv s = ROk (MError t) s2 ->
  Z.of_nat (length ms) < (if bool_decide (o_password o = []) then 0 else 1) + (if 0 <? o_database o then 1 else 0) ->
  m_conn r' = m_conn r /\ exists q, calls i l = map fst (results i e) ++ [q] /\
    e' = [MDid i q None (zero_val (kind_of q)) (Some (XText t)); MReturned i (zero_val (kind_of q)) (Some (XText t))].
Proof.
  intros E E1 H1 H2 H3 H4. pose proof (minv_exec _ _ _ _ E) as HI. pose proof (mi_tally _ _ _ _ HI i) as Ht. unfold mstep in E1. destruct (m_dead r); [discriminate|].
  rewrite (mi_opt _ _ _ _ HI), (open_conn_refuses (open_requests o) ms (Conn [] (new_rd cs)) s s2 t H1) in E1; [|unfold open_requests; destruct (bool_decide _), (_ <? _); cbn [app length]; lia|exact H2|exact H3].
  destruct (pstep (PDialFail i) (m_pool r)) as [[p' ep]|]; [|discriminate]. destruct (m_job r !! i) as [[q| |]|]; try discriminate. injection E1 as <- <-.
  split; [reflexivity|]. exists q. split; [apply Ht|reflexivity].
Qed.
Definition ok_line : gostr := bs "+OK" ++ crlf.
Example C123_nonvacuous : match mexec (call 1 (QGet (bs "k")) ++ connect 1 [ok_line ++ ok_line ++ bs "$1" ++ crlf ++ bs "x" ++ crlf] ++ done 1) (new_client (ROpt 3 2 (bs "pw"))) with
  | Some (r, e) => Some (cn_out <$> m_conn r !! 0%nat, did 0 e) | None => None end =
  Some (Some (bs "*2" ++ crlf ++ bs "$4" ++ crlf ++ bs "auth" ++ crlf ++ bs "$2" ++ crlf ++ bs "pw" ++ crlf ++ bs "*2" ++ crlf ++ bs "$6" ++ crlf ++ bs "select" ++ crlf ++ bs "$1" ++ crlf ++ bs "2" ++ crlf ++
              bs "*2" ++ crlf ++ bs "$3" ++ crlf ++ bs "get" ++ crlf ++ bs "$1" ++ crlf ++ bs "k" ++ crlf), [(QGet (bs "k"), (VStr (bs "x"), None))]).
Proof. vm_compute. reflexivity. Qed.
Example C123_refused_nonvacuous : match mexec (call 1 (QGet (bs "k")) ++ [MRun 1; MRun 1; MDial 1 (inr [bs "-WRONGPASS" ++ crlf])]) (new_client (ROpt 3 2 (bs "pw"))) with
  | Some (r, e) => Some (m_conn r !! 0%nat, e) | None => None end =
  Some (None, [MDid 1 (QGet (bs "k")) None (VStr []) (Some (XText (bs "WRONGPASS"))); MReturned 1 (VStr []) (Some (XText (bs "WRONGPASS")))]).
Proof. vm_compute. reflexivity. Qed.

(** ** C124
    Full statement: in every execution, a command that gets its result after a successful Select did so on a connection
    whose last successful Select was the last one of all:
    [e = e1 ++ MDid i q (Some c) v er :: e2 -> database o (did c e1) = database o (all_did e1)]. *)
Definition all_did (l : list mevent) : list (rcall * (cval * option cerr)) :=
  omap (fun x => match x with MDid _ q (Some _) v e => Some (q, (v, e)) | _ => None end) l.
(** the database that a server has chosen for a connection after these commands and results *)
Fixpoint chosen (n : Z) (l : list (rcall * (cval * option cerr))) : Z :=
  match l with
  | [] => n
  | (QSelect k, (_, None)) :: l => chosen k l
  | _ :: l => chosen n l
  end.
Definition database (o : ropt) (l : list (rcall * (cval * option cerr))) : Z := chosen (Z.max 0 (o_database o)) l.
(** One goroutine with a pool of two connections: after its Select returned, its Set works on database 0. *)
Theorem C124_select_refuted : exists o l r e1 e2 i q c v er, mexec l (new_client o) = Some (r, e1 ++ MDid i q (Some c) v er :: e2) /\
  (forall x, In x e1 -> whose x = 1%nat \/ whose x = 2%nat) /\ i = 1%nat /\ list.last e1 = Some (MReturned 1 (VStr []) None) /\
  database o (did c e1) = 0 /\ database o (all_did e1) = 3.
Proof.
  set (o := ROpt 2 0 []).
  set (l := call 1 (QGet (bs "a")) ++ connect 1 [bs "$-1" ++ crlf ++ ok_line ++ ok_line] ++ call 2 (QGet (bs "a")) ++ connect 2 [bs "$-1" ++ crlf ++ ok_line ++ ok_line] ++ done 1 ++ done 2 ++
            call 1 (QSelect 3) ++ done 1 ++ call 1 (QSet (bs "k") (bs "v")) ++ done 1).
  assert (H : match mexec l (new_client o) with Some (_, e) => match drop 6 e with MDid 1 (QSet _ _) (Some c) (VStr []) None :: _ => 
     list.last (take 6 e) = Some (MReturned 1 (VStr []) None) /\ database o (did c (take 6 e)) = 0 /\ database o (all_did (take 6 e)) = 3 /\ forallb (fun x => Nat.eqb (whose x) 1 || Nat.eqb (whose x) 2) (take 6 e) = true | _ => False end | None => False end)
    by (vm_compute; auto).
  destruct (mexec l (new_client o)) as [[r e]|] eqn:E; [|destruct H].
  destruct (drop 6 e) as [|[i q c v er|] e2] eqn:Ed; try contradiction. 
  destruct i as [|[|i]]; try contradiction. destruct q; try contradiction. destruct c as [c|]; try contradiction. destruct v as [[|]| | | |]; try contradiction. destruct er; try contradiction. destruct H as (H1 & H2 & H3 & H4).
  exists o, l, r, (take 6 e), e2, 1%nat. do 4 eexists. split; [rewrite <- Ed, take_drop; exact E|]. split.
  { intros x Hx. rewrite forallb_forall in H4. specialize (H4 x Hx). apply orb_true_iff in H4 as [H4|H4]; apply Nat.eqb_eq in H4; auto. }
  auto.
Qed.
(** With PoolSize 1 it holds, of all goroutines together. *)
Lemma single_connection o l r e : capacity (o_size o) = 1%nat -> mexec l (new_client o) = Some (r, e) -> forall i q c v er, In (MDid i q (Some c) v er) e -> c = 0%nat.
Proof.
  intros Hz E i q c v er Hin. destruct (C122_where _ _ _ _ E _ _ _ _ _ Hin) as (cn & Hc). pose proof (minv_exec _ _ _ _ E) as HI.
  pose proof (pi_size _ (mi_pool _ _ _ _ HI)) as H1. rewrite (mi_cap _ _ _ _ HI), Hz, <- (mi_size _ _ _ _ HI) in H1.
  destruct (decide (p_next (m_pool r) <= c)%nat) as [Hge|Hlt]; [|lia]. destruct (mi_fresh _ _ _ _ HI c Hge). congruence.
Qed.
Theorem C124_single_connection_partial o l r e1 e2 i q c v er : o_size o = 1 -> mexec l (new_client o) = Some (r, e1 ++ MDid i q (Some c) v er :: e2) ->
  database o (did c e1) = database o (all_did e1).
Proof.
  intros Hz E. assert (Hc : capacity (o_size o) = 1%nat) by (rewrite Hz; reflexivity). pose proof (single_connection _ _ _ _ Hc E) as H.
  assert (Hc0 : c = 0%nat) by (eapply H; apply in_or_app; right; left; reflexivity). subst c. f_equal.
  assert (H' : forall i q c v er, In (MDid i q (Some c) v er) e1 -> c = 0%nat) by (intros; eapply H; apply in_or_app; left; eassumption). clear -H'.
  induction e1 as [|x e1 IH]; [reflexivity|]. cbn [did all_did omap list_omap]. destruct x as [j p [d|] w f|]; [|apply IH; intros; eapply H'; right; eassumption..].
  rewrite (H' j p d w f) by (left; reflexivity). cbn. f_equal. apply IH; intros; eapply H'; right; eassumption.
Qed.
Example C124_nonvacuous : match mexec (call 1 (QSelect 3) ++ connect 1 [ok_line ++ ok_line] ++ done 1 ++ call 1 (QSet (bs "k") (bs "v")) ++ done 1) (new_client (ROpt 1 0 [])) with
  | Some (r, e) => Some (database (ROpt 1 0 []) (did 0 e), e) | None => None end =
  Some (3, [MDid 1 (QSelect 3) (Some 0%nat) (VStr []) None; MReturned 1 (VStr []) None; MDid 1 (QSet (bs "k") (bs "v")) (Some 0%nat) (VStr []) None; MReturned 1 (VStr []) None]).
Proof. vm_compute. reflexivity. Qed.

(** ** C125
    Full statement: when the server has closed the connections and accepts new ones, a later command opens a connection
    and gets its reply. *)
Lemma recv_wf s : wf s -> match recv s with ROk _ s' | RErr _ s' => wf s' | _ => True end.
Proof. intros W. pose proof (proj1 (read_progress (S (length (bytes_left s)))) s W) as H. fold (recv s) in H. destruct (recv s); try exact I; apply H. Qed.
Lemma recv_end s : wf s -> bytes_left s = [] -> exists s', recv s = RErr EEof s' /\ bytes_left s' = [] /\ wf s'.
Proof.
  intros W B. pose proof (read_byte_spec s W) as H. rewrite B in H. destruct H as (s' & H1 & H2). exists s'. pose proof (recv_wf s W) as Hw.
  assert (E : recv s = RErr EEof s') by (unfold recv; cbn [read_msg]; rewrite H1; reflexivity). rewrite E in Hw. auto.
Qed.
Lemma open_wf rs : forall c c0, wf (cn_in c) -> open_conn rs c = OOpen c0 -> wf (cn_in c0).
Proof.
  induction rs as [|q rs IH]; intros c c0 W E; cbn [open_conn] in E; [injection E as <-; exact W|]. pose proof (recv_wf _ W) as H.
  destruct (recv (cn_in c)) as [m s| | |]; try discriminate. destruct (snd (decode KString m)); [discriminate|]. eapply IH; [|exact E]. exact H.
Qed.
Lemma exec_all_wf qs : forall c l c', wf (cn_in c) -> exec_all qs c = Some (l, c') -> wf (cn_in c').
Proof.
  induction qs as [|q qs IH]; intros c l c' W E; cbn [exec_all] in E; [injection E as _ <-; exact W|]. pose proof (recv_wf _ W) as H.
  destruct (exec q c) as [v er c1|] eqn:E1; [|discriminate]. destruct (exec_all qs c1) as [[l2 c2]|] eqn:E2; [|discriminate]. injection E as _ <-. eapply IH; [|exact E2].
  unfold exec in E1. destruct (recv (cn_in c)) as [m s|x s| |]; try discriminate; [destruct (decode (kind_of q) m)|]; injection E1 as _ _ <-; exact H.
Qed.
Lemma conns_wf o l r e c cn : mexec l (new_client o) = Some (r, e) -> m_conn r !! c = Some cn -> wf (cn_in cn).
Proof.
  intros E Hc. destruct (C122_one_at_a_time _ _ _ _ E c cn Hc) as (i & cs & c0 & cn' & _ & H2 & H3 & ->). eapply exec_all_wf; [|exact H3].
  eapply open_wf; [|exact H2]. unfold wf. cbn. lia.
Qed.
(** A connection that the server has closed stays in the pool: every later command on it fails. *)
Definition closed (r : remote) (c : nat) : Prop := exists cn, m_conn r !! c = Some cn /\ bytes_left (cn_in cn) = [].
Lemma closed_step a r r' e c cn : m_conn r !! c = Some cn -> wf (cn_in cn) -> bytes_left (cn_in cn) = [] -> (forall d, (p_next (m_pool r) <= d)%nat -> m_conn r !! d = None) -> mstep a r = Some (r', e) ->
  (exists cn', m_conn r' !! c = Some cn' /\ wf (cn_in cn') /\ bytes_left (cn_in cn') = []) /\
  (forall i q v er, In (MDid i q (Some c) v er) e -> v = zero_val (kind_of q) /\ er = Some (XRecv EEof)).
Proof.
  intros Hc W B Hf E. unfold mstep in E. destruct (m_dead r); [discriminate|].
  assert (Hsame : forall r', m_conn r' = m_conn r -> exists cn', m_conn r' !! c = Some cn' /\ wf (cn_in cn') /\ bytes_left (cn_in cn') = []) by (intros ? ->; eauto).
  assert (Hfail : forall i er, match pstep (PDialFail i) (m_pool r), m_job r !! i with
      | Some (p, _), Some (JGet q) => Some (set_pool p (delete i (m_job r)) r, [MDid i q None (zero_val (kind_of q)) (Some er); MReturned i (zero_val (kind_of q)) (Some er)])
      | _, _ => None end = Some (r', e) -> (exists cn', m_conn r' !! c = Some cn' /\ wf (cn_in cn') /\ bytes_left (cn_in cn') = []) /\
      (forall i q v er, In (MDid i q (Some c) v er) e -> v = zero_val (kind_of q) /\ er = Some (XRecv EEof))).
  { clear E. intros i er E. destruct (pstep _ _) as [[? ?]|]; [|discriminate]. destruct (m_job r !! i) as [[| |]|]; try discriminate. injection E as <- <-. split; [apply Hsame; reflexivity|].
    cbn. intros ? ? ? ? [H|[H|[]]]; discriminate. }
  assert (Hins : forall d x j, d <> c -> exists cn', m_conn (set_conn d x j r) !! c = Some cn' /\ wf (cn_in cn') /\ bytes_left (cn_in cn') = []).
  { intros d x j Hd. exists cn. cbn [set_conn m_conn]. rewrite lookup_insert_ne by exact Hd. auto. }
  destruct a as [i q|i|i y|i|i|i].
  - destruct (m_job r !! i); [discriminate|]. destruct (pstep _ _) as [[? ?]|]; [|discriminate]. injection E as <- <-. split; [apply Hsame; reflexivity|intros ? ? ? ? []].
  - destruct (pstep _ _) as [[p' ep]|]; [|discriminate]. 
    assert (Hq : (m_conn r' = m_conn r /\ e = []) \/ (m_conn r' = m_conn r /\ exists v er, e = [MReturned i v er])).
    { destruct ep as [|[] [|]]; try (injection E as <- <-; left; auto; fail). destruct (m_job r !! i) as [[| |]|]; try discriminate. injection E as <- <-. right. eauto. }
    destruct Hq as [(Hq & ->)|(Hq & v & er & ->)]; (split; [apply Hsame, Hq|]); intros ? ? ? ? H; [destruct H|destruct H as [H|[]]; discriminate].
  - destruct y as [t|cs]; [eapply Hfail; eauto|]. destruct (open_conn _ _) as [c0|er|]; [|eapply Hfail; eauto|].
    + destruct (pstep _ _) as [[p' ep]|]; [|discriminate]. injection E as <- <-. split; [|intros ? ? ? ? []]. exists cn. cbn [m_conn]. rewrite lookup_insert_ne; [auto|].
      intros Hn. rewrite (Hf c) in Hc by lia. discriminate.
    + destruct (p_th _ !! i) as [[]|]; try discriminate. injection E as <- <-. split; [apply Hsame; reflexivity|intros ? ? ? ? []].
  - destruct (p_th _ !! i) as [[]|]; try discriminate. destruct (m_job r !! i) as [[q| |]|]; try discriminate. destruct (m_conn r !! c0) as [x|] eqn:Ex; [|discriminate]. injection E as <- <-.
    split; [|intros ? ? ? ? []]. destruct (decide (c0 = c)) as [->|Hne]; [|apply Hins, Hne]. rewrite Ex in Hc. injection Hc as ->. eexists. cbn [set_conn m_conn]. rewrite lookup_insert. split; [reflexivity|]. auto.
  - destruct (p_th _ !! i) as [[]|]; try discriminate. destruct (m_job r !! i) as [[|q|]|]; try discriminate. destruct (m_conn r !! c0) as [x|] eqn:Ex; [|discriminate].
    destruct (decide (c0 = c)) as [->|Hne].
    + rewrite Ex in Hc. injection Hc as ->. destruct (recv_end _ W B) as (s' & Er & B' & W'). rewrite Er in E. injection E as <- <-. split.
      * eexists. cbn [set_conn m_conn]. rewrite lookup_insert. split; [reflexivity|]. auto.
      * intros ? ? ? ? [H|[]]. injection H as <- <- <- <-. auto.
    + destruct (recv (cn_in x)) as [m s|er s| |]; [destruct (decode (kind_of q) m)| | |]; injection E as <- <-; (split; [first [apply Hins, Hne | apply Hsame; reflexivity]|]);
      intros ? ? ? ? H; try (destruct H as [H|[]]; congruence); destruct H.
  - destruct (m_job r !! i) as [[| |]|]; try discriminate. destruct (pstep _ _) as [[? ?]|]; [|discriminate]. injection E as <- <-. split; [apply Hsame; reflexivity|intros ? ? ? ? []].
Qed.
Lemma mexec_app l1 : forall l2 r r1 e1, mexec l1 r = Some (r1, e1) -> mexec (l1 ++ l2) r = match mexec l2 r1 with Some (r2, e2) => Some (r2, e1 ++ e2) | None => None end.
Proof.
  induction l1 as [|a l1 IH]; intros l2 r r1 e1 E; cbn in *; [injection E as <- <-; destruct (mexec l2 r) as [[]|]; reflexivity|].
  destruct (mstep a r) as [[r2 e2]|]; [|discriminate]. destruct (mexec l1 r2) as [[r3 e3]|] eqn:E3; [|discriminate]. injection E as <- <-.
  rewrite (IH l2 _ _ _ E3). destruct (mexec l2 r3) as [[]|]; [rewrite app_assoc|]; reflexivity.
Qed.
Theorem C125_closed_connection_partial o l r e c : mexec l (new_client o) = Some (r, e) -> closed r c ->
  forall l' r' e', mexec l' r = Some (r', e') -> closed r' c /\
    forall i q v er, In (MDid i q (Some c) v er) e' -> v = zero_val (kind_of q) /\ er = Some (XRecv EEof).
Proof.
  intros E (cn & Hc & B). pose proof (conns_wf _ _ _ _ _ _ E Hc) as W. intros l' r' e' E'.
  pose proof (mexec_inv (fun a x r => minv o a x r /\ (exists cn, m_conn r !! c = Some cn /\ wf (cn_in cn) /\ bytes_left (cn_in cn) = []) /\
    forall i q v er, In (MDid i q (Some c) v er) (drop (length e) x) -> v = zero_val (kind_of q) /\ er = Some (XRecv EEof)) r l e l' r' e') as H.
  destruct H as (_ & (cn' & H1 & _ & H2) & H3).
  - split; [apply minv_exec, E|]. split; [eauto|]. rewrite drop_all. intros ? ? ? ? [].
  - intros a x r0 act r1 e1 (I0 & (cn0 & C0 & W0 & B0) & D0) S0. split; [eapply minv_step; eauto|].
    destruct (closed_step act r0 r1 e1 c cn0 C0 W0 B0 (fun d Hd => proj1 (mi_fresh _ _ _ _ I0 d Hd)) S0) as [K1 K2]. split; [exact K1|].
    intros i q v er Hin. destruct (decide (length e <= length x)%nat) as [Hle|Hgt].
    + rewrite drop_app_le in Hin by exact Hle. apply in_app_or in Hin as [Hin|Hin]; eauto.
    + rewrite drop_app_ge in Hin by lia. rewrite <- (take_drop (length e - length x) e1) in K2. eapply K2. apply in_or_app. right. exact Hin.
  - exact E'.
  - split; [exists cn'; auto|]. intros i q v er Hin. apply (H3 i q v er). rewrite drop_app_alt by reflexivity. exact Hin.
Qed.
(** With PoolSize 1, one closed connection: whatever the server does afterwards, every command fails, and no connection is ever dialled. *)
Theorem C125_never_reconnects_refuted o l r e c : o_size o = 1 -> mexec l (new_client o) = Some (r, e) -> closed r c ->
  forall l' r' e', mexec l' r = Some (r', e') ->
    (forall i x, mstep (MDial i x) r' = None) /\
    forall i q c' v er, In (MDid i q c' v er) e' -> c' = Some c /\ v = zero_val (kind_of q) /\ er = Some (XRecv EEof).
Proof.
  intros Hz E Hcl l' r' e' E'. assert (Hcap : capacity (o_size o) = 1%nat) by (rewrite Hz; reflexivity).
  assert (Hno : forall a x s, minv o a x s -> m_conn s !! c <> None -> (forall i, p_th (m_pool s) !! i <> Some GDial) /\ c = 0%nat).
  { intros a x s HI Hc. pose proof (pi_size _ (mi_pool _ _ _ _ HI)) as H1. rewrite (mi_cap _ _ _ _ HI), Hcap, <- (mi_size _ _ _ _ HI) in H1.
    destruct (decide (p_next (m_pool s) <= c)%nat) as [Hge|Hlt]; [destruct (mi_fresh _ _ _ _ HI c Hge); congruence|]. split; [|lia].
    intros i Hi. pose proof (pi_dial _ (mi_pool _ _ _ _ HI) i Hi) as H2. rewrite (mi_cap _ _ _ _ HI), Hcap, <- (mi_size _ _ _ _ HI) in H2. lia. }
  assert (Hdial : forall s, (forall i, p_th (m_pool s) !! i <> Some GDial) -> forall i x, mstep (MDial i x) s = None).
  { intros s Hs i x. unfold mstep. destruct (m_dead s); [reflexivity|]. specialize (Hs i). cbn [pstep]. destruct (p_th (m_pool s) !! i) as [[]|]; try congruence;
    destruct x as [t|cs]; try reflexivity; destruct (open_conn _ _); reflexivity. }
  pose proof (mexec_app l l' _ _ _ E) as E2. rewrite E' in E2. pose proof (minv_exec _ _ _ _ E2) as HI2.
  destruct (C125_closed_connection_partial _ _ _ _ _ E Hcl _ _ _ E') as [(cn' & Hc' & _) Hev]. split.
  - apply Hdial. apply (Hno _ _ _ HI2). congruence.
  - intros i q c' v er Hin. destruct c' as [d|].
    + assert (d = c) as ->; [|split; [reflexivity|eapply Hev; exact Hin]]. rewrite (single_connection _ _ _ _ Hcap E2 i q d v er) by (apply in_or_app; right; exact Hin).
      symmetry. apply (Hno _ _ _ HI2). congruence.
    + exfalso. pose proof (mexec_inv (fun a x s => minv o a x s /\ closed s c /\ forall i q v er, ~ In (MDid i q None v er) (drop (length e) x)) r l e l' r' e') as H.
      destruct H as (_ & _ & H).
      * split; [apply minv_exec, E|]. split; [exact Hcl|]. rewrite drop_all. intros ? ? ? ? [].
      * intros a x s act s1 e1 (I0 & C0 & N0) S0. split; [eapply minv_step; eauto|]. destruct C0 as (cn0 & C0 & B0).
        assert (W0 : wf (cn_in cn0)).
        { destruct (mi_conns _ _ _ _ I0 c cn0 C0) as (? & cs & c0 & cn1 & b & _ & A2 & A3 & A4 & _). rewrite A4. eapply exec_all_wf; [|exact A3]. eapply open_wf; [|exact A2]. unfold wf. cbn. lia. }
        destruct (closed_step act s s1 e1 c cn0 C0 W0 B0 (fun d Hd => proj1 (mi_fresh _ _ _ _ I0 d Hd)) S0) as [(cn2 & K1 & _ & K2) _]. split; [exists cn2; auto|].
        assert (N1 : forall i q v er, ~ In (MDid i q None v er) e1).
        { intros i1 q1 v1 er1 Hin1. destruct (Hno _ _ _ I0 ltac:(congruence)) as [Hnd _]. unfold mstep in S0. destruct (m_dead s); [discriminate|].
          destruct act as [j p|j|j y|j|j|j].
          - repeat (case_match; try discriminate). injection S0 as <- <-. destruct Hin1.
          - destruct (pstep _ _) as [[? [|[] [|]]]|]; try discriminate; try (injection S0 as <- <-; destruct Hin1). destruct (m_job s !! j) as [[| |]|]; try discriminate. injection S0 as <- <-. destruct Hin1 as [Hin1|[]]. discriminate.
          - cbn [pstep] in S0. specialize (Hnd j). destruct (p_th (m_pool s) !! j) as [[]|]; try congruence; destruct y as [t|cs]; try discriminate; destruct (open_conn _ _); discriminate.
          - repeat (case_match; try discriminate). injection S0 as <- <-. destruct Hin1.
          - repeat (case_match; try discriminate); injection S0 as <- <-; try (destruct Hin1 as [Hin1|[]]; discriminate); destruct Hin1.
          - repeat (case_match; try discriminate). injection S0 as <- <-. destruct Hin1. }
        intros i1 q1 v1 er1 Hin1. destruct (decide (length e <= length x)%nat) as [Hle|Hgt].
        -- rewrite drop_app_le in Hin1 by exact Hle. apply in_app_or in Hin1 as [Hin1|Hin1]; [eapply N0|eapply N1]; exact Hin1.
        -- rewrite drop_app_ge in Hin1 by lia. rewrite <- (take_drop (length e - length x) e1) in N1. eapply N1. apply in_or_app. right. exact Hin1.
      * exact E'.
      * apply (H i q v er). rewrite drop_app_alt by reflexivity. exact Hin.
Qed.
(** An idle connection times out at the server: the next call, and the one after it, fail. *)
Example C125_nonvacuous : match mexec (call 1 (QGet (bs "k")) ++ connect 1 [bs "$1" ++ crlf ++ bs "x" ++ crlf] ++ done 1 ++ call 1 (QGet (bs "k")) ++ done 1 ++ call 2 (QGet (bs "k")) ++ done 2) (new_client (ROpt 20 0 [])) with
  | Some (r, e) => Some (match m_conn r !! 0%nat with Some cn => bytes_left (cn_in cn) | None => bs "?" end, did 0 e) | None => None end =
  Some ([], [(QGet (bs "k"), (VStr (bs "x"), None)); (QGet (bs "k"), (VStr [], Some (XRecv EEof))); (QGet (bs "k"), (VStr [], Some (XRecv EEof)))]).
Proof. vm_compute. reflexivity. Qed.
