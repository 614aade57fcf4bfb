(** * Props_Live: calls of many goroutines on the remote client, with the server *)
From stdpp Require Import gmap list.
From Verif Require Import Base GoFloat RespModel RespLib RespSpec ClientModel PoolModel RemoteModel RdbLib Props_Resp Props_Client Props_Pool Props_Remote LiveModel.

(** ** Vocabulary

    The events of one goroutine. *)
Definition owner (x : vevent) : option nat :=
  match x with VCalled i _ => Some i | VServed w _ _ _ _ => w | VEv (MDid i _ _ _ _) => Some i | VEv (MReturned i _ _) => Some i end.
Definition mine (i : nat) (l : list vevent) : list vevent := filter (fun x => owner x = Some i) l.
(** A call of a goroutine as it should be: the call, the server serving its very request, the reply read and decoded on the same
    connection, the return of that result; or the call, the failure to open a connection, the return of that error, the server having
    seen nothing. *)
Inductive seg := SIdle | SCalled (q : rcall) | SServed (q : rcall) (c : nat) (m : msg) | SDid (v : cval) (e : option cerr).
Inductive seg_step : seg -> vevent -> seg -> Prop :=
| seg_call i q : seg_step SIdle (VCalled i q) (SCalled q)
| seg_serve w c q m cs : seg_step (SCalled q) (VServed w c (request q) m cs) (SServed q c m)
| seg_did i q c m v e : decode (kind_of q) m = (v, e) -> seg_step (SServed q c m) (VEv (MDid i q (Some c) v e)) (SDid v e)
| seg_fail i q e : seg_step (SCalled q) (VEv (MDid i q None (zero_val (kind_of q)) (Some e))) (SDid (zero_val (kind_of q)) (Some e))
| seg_return i v e : seg_step (SDid v e) (VEv (MReturned i v e)) SIdle.
Inductive segs : seg -> list vevent -> seg -> Prop :=
| segs_nil s : segs s [] s
| segs_cons s x s1 l s2 : seg_step s x s1 -> segs s1 l s2 -> segs s (x :: l) s2.
(** What the server did is a history of its own. *)
Fixpoint history {S} (srv : nat -> list gostr -> S -> S * msg) (st : S) (l : list vevent) (st' : S) : Prop :=
  match l with
  | [] => st = st'
  | VServed _ c args m _ :: r => snd (srv c args st) = m /\ history srv (fst (srv c args st)) r st'
  | _ :: r => history srv st r st'
  end.
(** The pieces [cs], arriving where nothing else is to be read, are read as the reply [m]. *)
Definition delivers (m : msg) (cs : list gostr) : Prop :=
  forall b src, bytes_left (Rd b src) = [] -> bytes_left (Rd b (src ++ cs)) <> [] /\
    exists s', recv (Rd b (src ++ cs)) = ROk m s' /\ bytes_left s' = [] /\ wf s'.
Definition well_delivered (l : list vevent) : Prop := forall w c args m cs, In (VServed w c args m cs) l -> delivers m cs.

(** It is so for replies in one piece of at most 4096 bytes, and for steady ones (C58) in any pieces. *)
Lemma nothing_left b src : bytes_left (Rd b src) = [] -> b = [] /\ Forall (fun x => x = []) src.
Proof.
  unfold bytes_left. cbn [r_buf r_src]. intros H. apply app_eq_nil in H as [-> H]. split; [reflexivity|]. induction src as [|c src IH]; constructor; cbn in H; apply app_eq_nil in H as [H1 H2]; auto.
Qed.
Lemma skip_empty src cs : Forall (fun x => x = []) src -> recv (Rd [] (src ++ cs)) = recv (Rd [] cs).
Proof. induction 1 as [|c src -> _ IH]; [reflexivity|]. cbn [app]. rewrite <- IH. reflexivity. Qed.
Lemma delivers_whole m s : wire m s -> (length s <= 4096)%nat -> delivers m [s].
Proof.
  intros Hw Hl b src Hb. apply nothing_left in Hb as [-> He]. pose proof (wire_long _ _ Hw) as Hlong. split.
  - unfold bytes_left. cbn [r_buf r_src app]. rewrite concat_app. cbn. rewrite app_nil_r. intros X. apply app_eq_nil in X as [_ ->]. cbn in Hlong. lia.
  - rewrite skip_empty by exact He. rewrite recv_fill by (try (intros ->; cbn in Hlong; lia); pose proof bufsize_val as Hz; lia).
    pose proof (C57_buffered_reply m s [] [] Hw ltac:(lia)) as Hr. rewrite app_nil_r in Hr. rewrite Hr. eexists. split; [reflexivity|]. split; [reflexivity|]. unfold wf. cbn. lia.
Qed.
Lemma delivers_steady m cs : steady m -> concat cs = serialize m -> delivers m cs.
Proof.
  intros Hm E b src Hb. apply nothing_left in Hb as [-> He]. 
  assert (Hn : serialize m <> []) by (destruct m; discriminate).
  assert (B : bytes_left (Rd [] (src ++ cs)) = serialize m ++ []).
  { unfold bytes_left. cbn [r_buf r_src app]. rewrite concat_app, E. replace (concat src) with (@nil byte); [rewrite app_nil_r; reflexivity|]. induction He as [|c src -> _ IH]; [reflexivity|exact IH]. }
  split; [rewrite B, app_nil_r; exact Hn|]. unfold recv.
  destruct (read_steady m Hm (S (length (bytes_left (Rd [] (src ++ cs))))) _ [] B) as (s' & H1 & H2 & H3); [unfold wf; cbn; lia|rewrite B, app_nil_r; lia|]. eauto.
Qed.

(** ** The invariant *)
Lemma itoa_len_dec {A} (l : list A) : itoa (zlen l) = dec (zlen l).
Proof. unfold itoa. destruct (Z.ltb_spec (zlen l) 0); [unfold zlen in *; lia|reflexivity]. Qed.
Lemma request_is_sent args : request_bytes args = send (convert_to_message args).
Proof.
  unfold request_bytes, send, convert_to_message. cbn [serialize]. rewrite itoa_len_dec. unfold eof, zlen. rewrite !map_length, <- !app_assoc. do 3 f_equal.
  induction args as [|a args IH]; [reflexivity|]. cbn [map concat serialize]. rewrite IH. f_equal. unfold arg_bytes, eof. rewrite itoa_len_dec, <- !app_assoc. reflexivity.
Qed.
Lemma request_wire args : wire (convert_to_message args) (request_bytes args).
Proof.
  rewrite request_is_sent. apply wire_serialize. unfold convert_to_message. apply encodable_arr. rewrite List.Forall_forall. intros m Hm. apply in_map_iff in Hm as (a & <- & _). exact I.
Qed.
(** A server that reads a request from the bytes of one reads that one. *)
Lemma request_unique a b r r' : request_bytes a ++ r = request_bytes b ++ r' -> a = b /\ r = r'.
Proof.
  intros E. destruct (proj1 wire_det _ _ (request_wire a) _ _ r r' (request_wire b) E) as (H1 & _ & H2). split; [|exact H2].
  unfold convert_to_message in H1. injection H1 as H1. revert b H1 E. induction a as [|x a IH]; intros [|y b] H1 _; try discriminate; [reflexivity|]. injection H1 as -> H1. f_equal.
  clear - H1. revert b H1. induction a as [|x a IH]; intros [|z b] H1; try discriminate; [reflexivity|]. injection H1 as -> H1. f_equal. auto.
Qed.
Lemma request_nonempty a : request_bytes a <> [].
Proof. unfold request_bytes. discriminate. Qed.

Definition seg_at (j : option job) (s : seg) : Prop :=
  match j with
  | None => s = SIdle
  | Some (JGet q) => s = SCalled q
  | Some (JSent q) => s = SCalled q \/ exists c m, s = SServed q c m
  | Some (JRet v e) => s = SDid v e
  end.
Definition waits (r : remote) (c i : nat) (q : rcall) : Prop := p_th (m_pool r) !! i = Some (Lent c) /\ m_job r !! i = Some (JSent q).
(** A connection: a request not yet read by the server, a reply not yet read by the client, or nothing. *)
Definition conn_at (r : remote) (sg : nat -> seg) (c : nat) (x : conn) (n : nat) : Prop :=
  exists pre pend, cn_out x = pre ++ pend /\ length pre = n /\
  ((exists i q, waits r c i q /\
     ((sg i = SCalled q /\ pend = request_bytes (request q) /\ bytes_left (cn_in x) = []) \/
      (exists m s', sg i = SServed q c m /\ pend = [] /\ bytes_left (cn_in x) <> [] /\ recv (cn_in x) = ROk m s' /\ bytes_left s' = [])))
   \/ ((forall i q, ~ waits r c i q) /\ pend = [] /\ bytes_left (cn_in x) = [])).
Record vinv {S} (srv : nat -> list gostr -> S -> S * msg) (st0 : S) (evs : list vevent) (v : live S) (sg : nat -> seg) : Prop := {
  vi_pool : pinv (m_pool (v_cl v));
  vi_job : forall i, job_ok (p_th (m_pool (v_cl v)) !! i) (m_job (v_cl v) !! i);
  vi_seg : forall i, segs SIdle (mine i evs) (sg i);
  vi_at : forall i, seg_at (m_job (v_cl v) !! i) (sg i);
  vi_dom : forall c, (c < p_next (m_pool (v_cl v)))%nat <-> m_conn (v_cl v) !! c <> None;
  vi_conn : forall c x, m_conn (v_cl v) !! c = Some x -> exists n, v_got v !! c = Some n /\ conn_at (v_cl v) sg c x n;
  vi_hist : history srv st0 evs (v_st v);
  vi_own : forall w c args m cs, In (VServed w c args m cs) evs -> exists i, w = Some i
}.
Lemma segs_app s l s1 l' s2 : segs s l s1 -> segs s1 l' s2 -> segs s (l ++ l') s2.
Proof. induction 1; intros Hl; [exact Hl|econstructor; eauto]. Qed.
Lemma mine_app i l l' : mine i (l ++ l') = mine i l ++ mine i l'.
Proof. unfold mine. apply list.filter_app. Qed.
Lemma mine_others i j l : Forall (fun x => owner x = Some i) l -> j <> i -> mine j l = [].
Proof. intros H Hne. unfold mine. induction H as [|x l Hx _ IH]; [reflexivity|]. rewrite filter_cons_False; [exact IH|]. rewrite Hx. congruence. Qed.
Lemma mine_all i l : Forall (fun x => owner x = Some i) l -> mine i l = l.
Proof. intros H. unfold mine. induction H as [|x l Hx _ IH]; [reflexivity|]. rewrite filter_cons_True by exact Hx. f_equal. exact IH. Qed.
Lemma history_app {S} srv l : forall (st st1 st2 : S) l', history srv st l st1 -> history srv st1 l' st2 -> history srv st (l ++ l') st2.
Proof.
  induction l as [|x l IH]; intros st st1 st2 l' H1 H2; cbn in *; [subst; exact H2|]. destruct x; [eauto| |eauto]. destruct H1 as [<- H1]. split; [reflexivity|eauto].
Qed.
Lemma history_app_inv {S} srv l : forall (st st2 : S) l', history srv st (l ++ l') st2 -> exists st1, history srv st l st1 /\ history srv st1 l' st2.
Proof.
  induction l as [|x l IH]; intros st st2 l' H; cbn in *; [eauto|]. destruct x; [eauto| |eauto]. destruct H as [E H]. destruct (IH _ _ _ H) as (st1 & A & B). eauto.
Qed.
Lemma quiet_history {S} (srv : nat -> list gostr -> S -> S * msg) st a e : history srv st (match a with MCall i q => [VCalled i q] | _ => [] end ++ map VEv e) st.
Proof. assert (H : history srv st (map VEv e) st) by (induction e; cbn; auto). destruct a; exact H. Qed.
Lemma quiet_own a e w c args m cs : ~ In (VServed w c args m cs) (match a with MCall i q => [VCalled i q] | _ => [] end ++ map VEv e).
Proof.
  intros H. apply in_app_or in H as [H|H].
  - destruct a; cbn in H; try contradiction. destruct H as [H|[]]. discriminate.
  - apply in_map_iff in H as (? & ? & _). discriminate.
Qed.
Lemma waits_unique r c i j q q' : pinv (m_pool r) -> waits r c i q -> waits r c j q' -> i = j /\ q = q'.
Proof. intros HP [A B] [A' B']. pose proof (lent_unique _ _ _ _ HP A A') as <-. rewrite B in B'. injection B' as <-. auto. Qed.
(** A step of goroutine [i] that leaves a connection alone, with [i] not waiting on it. *)
Lemma conn_frame r r' sg sg' i c x n : (forall j, j <> i -> p_th (m_pool r') !! j = p_th (m_pool r) !! j /\ m_job r' !! j = m_job r !! j /\ sg' j = sg j) ->
  (forall q, ~ waits r c i q) -> (forall q, ~ waits r' c i q) -> conn_at r sg c x n -> conn_at r' sg' c x n.
Proof.
  intros Hf H1 H2 (pre & pend & A & B & C). exists pre, pend. split; [exact A|]. split; [exact B|]. destruct C as [(j & q & W & C)|(W & C)].
  - left. exists j, q. destruct (decide (j = i)) as [->|Hne]; [destruct (H1 _ W)|]. destruct (Hf j Hne) as (E1 & E2 & E3). unfold waits. rewrite E1, E2, E3. split; [exact W|exact C].
  - right. split; [|exact C]. intros j q [W1 W2]. destruct (decide (j = i)) as [->|Hne]; [apply (H2 q); split; assumption|]. destruct (Hf j Hne) as (E1 & E2 & E3). rewrite E1 in W1. rewrite E2 in W2. apply (W j q). split; assumption.
Qed.
Definition upd (sg : nat -> seg) (i : nat) (s : seg) : nat -> seg := fun j => if decide (j = i) then s else sg j.
Lemma upd_eq sg i s : upd sg i s i = s. Proof. unfold upd. rewrite decide_True by reflexivity. reflexivity. Qed.
Lemma upd_ne sg i s j : j <> i -> upd sg i s j = sg j. Proof. intros H. unfold upd. rewrite decide_False by exact H. reflexivity. Qed.

(** A step of the client: what is to be shown about it. *)
Lemma vinv_frame {S} srv st0 evs (v : live S) sg a r1 e1 s1 : vinv srv st0 evs v sg -> let r := v_cl v in let e := match a with MCall i q => [VCalled i q] | _ => [] end ++ map VEv e1 in
  pinv (m_pool r1) -> (forall j, j <> actor a -> p_th (m_pool r1) !! j = p_th (m_pool r) !! j /\ m_job r1 !! j = m_job r !! j) ->
  Forall (fun x => owner x = Some (actor a)) e -> segs (sg (actor a)) e s1 ->
  job_ok (p_th (m_pool r1) !! actor a) (m_job r1 !! actor a) -> seg_at (m_job r1 !! actor a) s1 ->
  (forall c, (c < p_next (m_pool r1))%nat <-> m_conn r1 !! c <> None) ->
  (forall c x, m_conn r1 !! c = Some x -> exists n, got_after r r1 (v_got v) !! c = Some n /\ conn_at r1 (upd sg (actor a) s1) c x n) ->
  vinv srv st0 (evs ++ e) (Live r1 (v_st v) (got_after r r1 (v_got v))) (upd sg (actor a) s1).
Proof.
  intros HI r e HP Hf He Hs Hj Ha Hd Hc. destruct HI as [I1 I2 I3 I4 I5 I6 I7 I8]. split; cbn [v_cl v_st v_got]; auto.
  - intros i. destruct (decide (i = actor a)) as [->|Hne]; [exact Hj|]. destruct (Hf i Hne) as [-> ->]. apply I2.
  - intros i. rewrite mine_app. destruct (decide (i = actor a)) as [->|Hne].
    + rewrite upd_eq, (mine_all _ e He). exact (segs_app _ _ _ _ _ (I3 _) Hs).
    + rewrite upd_ne by exact Hne. rewrite (mine_others _ _ _ He Hne), app_nil_r. apply I3.
  - intros i. destruct (decide (i = actor a)) as [->|Hne]; [rewrite upd_eq; exact Ha|]. rewrite upd_ne by exact Hne. destruct (Hf i Hne) as [_ ->]. apply I4.
  - apply (history_app _ _ _ _ _ _ I7). apply quiet_history.
  - intros w c args m cs H. apply in_app_or in H as [H|H]; [eauto|]. destruct (quiet_own _ _ _ _ _ _ _ H).
Qed.
Lemma got_same r r' g : m_conn r' = m_conn r -> got_after r r' g = g.
Proof. unfold got_after. intros ->. destruct (m_conn r !! p_next (m_pool r)); reflexivity. Qed.
Lemma got_known r r' g : m_conn r !! p_next (m_pool r) = None -> m_conn r' !! p_next (m_pool r) = None -> got_after r r' g = g.
Proof. unfold got_after. intros -> ->. reflexivity. Qed.
(** ... and when it touches no connection *)
Lemma vinv_quiet {S} srv st0 evs (v : live S) sg a r1 e1 s1 : vinv srv st0 evs v sg -> let r := v_cl v in let e := match a with MCall i q => [VCalled i q] | _ => [] end ++ map VEv e1 in
  m_conn r1 = m_conn r -> p_next (m_pool r1) = p_next (m_pool r) ->
  pinv (m_pool r1) -> (forall j, j <> actor a -> p_th (m_pool r1) !! j = p_th (m_pool r) !! j /\ m_job r1 !! j = m_job r !! j) ->
  (forall c q, ~ waits r c (actor a) q) -> (forall c q, ~ waits r1 c (actor a) q) ->
  Forall (fun x => owner x = Some (actor a)) e -> segs (sg (actor a)) e s1 ->
  job_ok (p_th (m_pool r1) !! actor a) (m_job r1 !! actor a) -> seg_at (m_job r1 !! actor a) s1 ->
  vinv srv st0 (evs ++ e) (Live r1 (v_st v) (got_after r r1 (v_got v))) (upd sg (actor a) s1).
Proof.
  intros HI r e H1 H2 HP Hf W1 W2 He Hs Hj Ha. apply vinv_frame; auto.
  - intros c. rewrite H1, H2. apply (vi_dom _ _ _ _ _ HI).
  - intros c x. rewrite got_same, H1 by exact H1. intros Hc. destruct (vi_conn _ _ _ _ _ HI c x Hc) as (n & A & B). exists n. split; [exact A|].
    apply (conn_frame r r1 sg _ (actor a)); auto. intros j Hne. rewrite upd_ne by exact Hne. destruct (Hf j Hne). auto.
Qed.
Lemma vinv_client {S} srv st0 evs (v : live S) sg a v' e : vinv srv st0 evs v sg -> vstep srv (VDo a) v = Some (v', e) -> exists sg', vinv srv st0 (evs ++ e) v' sg'.
Proof.
  intros HI E. cbn [vstep] in E. destruct (may a (v_cl v)) eqn:Hmay; [|discriminate]. destruct (mstep a (v_cl v)) as [[r1 e1]|] eqn:Em; [|discriminate]. injection E as <- <-.
  pose proof (vi_pool _ _ _ _ _ HI) as HP. set (r := v_cl v) in *. unfold mstep in Em. destruct (m_dead r) eqn:Hdead; [discriminate|].
  assert (Hdie : match a with MCall _ _ => False | _ => True end -> vinv srv st0 (evs ++ match a with MCall i q => [VCalled i q] | _ => [] end ++ map VEv []) (Live (die r) (v_st v) (got_after r (die r) (v_got v))) sg).
  { intros Ha. replace (match a with MCall i q => [VCalled i q] | _ => [] end ++ map VEv []) with (@nil vevent) by (destruct a; try contradiction; reflexivity). rewrite app_nil_r, got_same by reflexivity.
    destruct HI as [I1 I2 I3 I4 I5 I6 I7 I8]. split; cbn [v_cl v_st v_got die m_pool m_job m_conn]; auto. }
  assert (Hfail : forall i y (er : cerr), a = MDial i y -> match pstep (PDialFail i) (m_pool r), m_job r !! i with
      | Some (p, _), Some (JGet q) => Some (set_pool p (delete i (m_job r)) r, [MDid i q None (zero_val (kind_of q)) (Some er); MReturned i (zero_val (kind_of q)) (Some er)])
      | _, _ => None end = Some (r1, e1) -> exists sg', vinv srv st0 (evs ++ match a with MCall i q => [VCalled i q] | _ => [] end ++ map VEv e1) (Live r1 (v_st v) (got_after r r1 (v_got v))) sg').
  { clear Em. intros i y er -> E. destruct (pstep (PDialFail i) (m_pool r)) as [[p' ep]|] eqn:Ep; [|discriminate]. destruct (m_job r !! i) as [[q| |]|] eqn:Ej; try discriminate. injection E as <- <-.
    destruct (pinv_step _ _ _ _ HP Ep) as [HP' _]. destruct (pstep_next _ _ _ _ Ep) as [Hn _]. pose proof (pstep_th _ _ _ _ Ep) as Hth. cbn in Hth.
    cbn [pstep] in Ep. destruct (p_th (m_pool r) !! i) as [[]|] eqn:Ei; try discriminate. unfold ret in Ep. injection Ep as Ep _.
    assert (Ei' : p_th p' !! i = None) by (rewrite <- Ep; cbn; apply lookup_delete). clear Ep.
    eexists. apply (vinv_quiet srv st0 evs v sg (MDial i y) _ _ SIdle HI); fold r; cbn [actor set_pool m_opt m_pool m_conn m_job]; auto.
    - intros j Hj. rewrite lookup_delete_ne by auto. auto.
    - intros c q' [_ B]. congruence.
    - intros c q' [B _]. cbn [set_pool m_pool] in B. congruence.
    - cbn. repeat constructor.
    - pose proof (vi_at _ _ _ _ _ HI i) as Ha. fold r in Ha. rewrite Ej in Ha. cbn in Ha |- *. rewrite Ha. econstructor; [apply seg_fail|]. econstructor; [apply seg_return|constructor].
    - rewrite Ei', lookup_delete. reflexivity.
    - rewrite lookup_delete. reflexivity. }
  destruct a as [i q|i|i y|i|i|i].
  - destruct (m_job r !! i) as [j|] eqn:Ej; [discriminate|]. destruct (pstep (PGet i) (m_pool r)) as [[p' ep]|] eqn:Ep; [|discriminate]. injection Em as <- <-.
    destruct (pinv_step _ _ _ _ HP Ep) as [HP' _]. destruct (pstep_next _ _ _ _ Ep) as [Hn _]. pose proof (pstep_th _ _ _ _ Ep) as Hth. cbn in Hth.
    cbn [pstep] in Ep. destruct (p_th (m_pool r) !! i) as [|] eqn:Ei; try discriminate. unfold go in Ep. injection Ep as Ep _.
    assert (Ei' : p_th p' !! i = Some GTry) by (rewrite <- Ep; cbn; apply lookup_insert). clear Ep.
    eexists. apply (vinv_quiet srv st0 evs v sg (MCall i q) _ _ (SCalled q) HI); fold r; cbn [actor set_pool m_opt m_pool m_conn m_job]; auto.
    + intros j Hj. rewrite lookup_insert_ne by auto. auto.
    + intros c q' [_ B]. congruence.
    + intros c q' [B _]. cbn [set_pool m_pool] in B. congruence.
    + cbn. repeat constructor.
    + pose proof (vi_at _ _ _ _ _ HI i) as Ha. fold r in Ha. rewrite Ej in Ha. cbn in Ha |- *. rewrite Ha. econstructor; [apply seg_call|constructor].
    + rewrite Ei', lookup_insert. cbn. eauto.
    + rewrite lookup_insert. reflexivity.
  - destruct (pstep (PRun i) (m_pool r)) as [[p' ep]|] eqn:Ep; [|discriminate].
    destruct (pinv_step _ _ _ _ HP Ep) as [HP' _]. destruct (pstep_next _ _ _ _ Ep) as [Hn _]. pose proof (pstep_th _ _ _ _ Ep) as Hth. cbn in Hth.
    pose proof (vi_job _ _ _ _ _ HI i) as Hj. fold r in Hj. pose proof (vi_at _ _ _ _ _ HI i) as Ha. fold r in Ha.
    assert (Hcases : (e1 = [] /\ r1 = set_pool p' (m_job r) r /\ exists q, m_job r !! i = Some (JGet q) /\ match p_th p' !! i with Some (GTry | GLock | GCheck | GDial | GSend _ | GUnlock | GWait | Lent _) => True | _ => False end) \/
      (exists c v e, p_th (m_pool r) !! i = Some (PSend c) /\ m_job r !! i = Some (JRet v e) /\ p_th p' !! i = None /\ e1 = [MReturned i v e] /\ r1 = set_pool p' (delete i (m_job r)) r)).
    { cbn [pstep] in Ep. destruct (p_th (m_pool r) !! i) as [pc|] eqn:Ei; [|discriminate].
      destruct pc as [| | | |g| | |g|g| |g]; cbn [job_ok] in Hj; try discriminate; try contradiction; unfold go, ret, set_th, set_chan, set_lock in Ep; cbn [p_cap p_size p_chan p_lock p_next p_th] in Ep.
      7: { right. destruct Hj as (vv & er & Hj). destruct (Nat.ltb _ _); [|discriminate]. injection Ep as <- <-. rewrite Hj in Em. injection Em as <- <-.
           exists g, vv, er. cbn [p_th]. rewrite lookup_delete. auto. }
      all: left; destruct Hj as (q & Hj); repeat (match type of Ep with context[match ?z with _ => _ end] => destruct z eqn:?; try discriminate end); injection Ep as <- <-; injection Em as <- <-; (split; [reflexivity|]; split; [reflexivity|]; exists q; split; [exact Hj|]; cbn [p_th]; rewrite lookup_insert; exact I). }
    destruct Hcases as [(-> & -> & q & Ej & Hpc)|(c & vv & er & Ei & Ej & Ei' & -> & ->)].
    + eexists. apply (vinv_quiet srv st0 evs v sg (MRun i) _ _ (SCalled q) HI); fold r; cbn [actor set_pool m_opt m_pool m_conn m_job]; auto.
      * intros c q' [_ B]. congruence.
      * intros c q' [_ B]. cbn [set_pool m_job] in B. congruence.
      * constructor.
      * rewrite Ej in Ha. cbn in Ha |- *. rewrite Ha. constructor.
      * rewrite Ej. destruct (p_th p' !! i) as [[]|]; cbn; try contradiction; eauto; discriminate.
      * rewrite Ej. reflexivity.
    + eexists. apply (vinv_quiet srv st0 evs v sg (MRun i) _ _ SIdle HI); fold r; cbn [actor set_pool m_opt m_pool m_conn m_job]; auto.
      * intros j Hne. rewrite lookup_delete_ne by auto. auto.
      * intros c' q' [_ B]. congruence.
      * intros c' q' [B _]. cbn [set_pool m_pool] in B. congruence.
      * cbn. repeat constructor.
      * rewrite Ej in Ha. cbn in Ha |- *. rewrite Ha. econstructor; [apply seg_return|constructor].
      * rewrite Ei', lookup_delete. reflexivity.
      * rewrite lookup_delete. reflexivity.
  - destruct y as [t|cs]; [eapply Hfail; eauto|]. cbn [may] in Hmay. destruct (open_conn (open_requests (m_opt r)) (Conn [] (new_rd cs))) as [cn|er|] eqn:Eo; [|eapply Hfail; eauto|].
    + apply bool_decide_eq_true in Hmay. destruct (pstep (PDialOk i) (m_pool r)) as [[p' ep]|] eqn:Ep; [|discriminate]. injection Em as <- <-.
      destruct (pinv_step _ _ _ _ HP Ep) as [HP' _]. destruct (pstep_next _ _ _ _ Ep) as [Hn _]. pose proof (pstep_th _ _ _ _ Ep) as Hth. cbn in Hth.
      cbn [pstep] in Ep. destruct (p_th (m_pool r) !! i) as [[]|] eqn:Ei; try discriminate. injection Ep as Ep _.
      assert (Ei' : p_th p' !! i = Some (GSend (p_next (m_pool r)))) by (rewrite <- Ep; cbn; apply lookup_insert). clear Ep.
      pose proof (vi_job _ _ _ _ _ HI i) as Hj. fold r in Hj. rewrite Ei in Hj. cbn in Hj. destruct Hj as (q & Hj). pose proof (vi_at _ _ _ _ _ HI i) as Ha. fold r in Ha. rewrite Hj in Ha. cbn in Ha.
      assert (Hnew : m_conn r !! p_next (m_pool r) = None).
      { destruct (m_conn r !! p_next (m_pool r)) eqn:Ec; [|reflexivity]. pose proof (proj2 (vi_dom _ _ _ _ _ HI (p_next (m_pool r)))) as Hb. fold r in Hb. rewrite Ec in Hb. specialize (Hb ltac:(discriminate)). lia. }
      eexists. apply (vinv_frame srv st0 evs v sg (MDial i (inr cs)) _ _ (SCalled q) HI); fold r; cbn [actor m_opt m_pool m_conn m_job]; auto.
      * constructor.
      * rewrite Ha. constructor.
      * rewrite Ei', Hj. cbn. eauto.
      * rewrite Hj. reflexivity.
      * intros c. rewrite Hn. destruct (decide (p_next (m_pool r) = c)) as [<-|Hne]; [rewrite lookup_insert; split; [discriminate|lia]|]. rewrite lookup_insert_ne by exact Hne.
        pose proof (vi_dom _ _ _ _ _ HI c) as Hb. fold r in Hb. rewrite <- Hb. lia.
      * intros c x Hx. unfold got_after. cbn [m_conn]. rewrite Hnew, lookup_insert. destruct (decide (p_next (m_pool r) = c)) as [<-|Hne].
        -- rewrite lookup_insert in Hx. injection Hx as <-. rewrite lookup_insert. eexists. split; [reflexivity|]. exists (cn_out cn), []. rewrite app_nil_r. split; [reflexivity|]. split; [reflexivity|].
           right. split; [|auto]. intros j q' [W1 W2]. cbn [m_pool] in W1. destruct (decide (j = i)) as [->|Hji]; [congruence|]. rewrite (Hth j Hji) in W1. pose proof (lent_bound _ _ _ HP W1). lia.
        -- rewrite lookup_insert_ne in Hx by exact Hne. rewrite lookup_insert_ne by exact Hne. destruct (vi_conn _ _ _ _ _ HI c x Hx) as (n & A & B). exists n. split; [exact A|].
           refine (conn_frame r _ sg _ i c x n _ _ _ B); cbn [m_pool m_job].
           ++ intros j Hji. rewrite upd_ne by exact Hji. split; [apply Hth, Hji|auto].
           ++ intros q' [W _]. congruence.
           ++ intros q' [W _]. cbn [m_pool] in W. congruence.
    + destruct (p_th (m_pool r) !! i) as [[]|]; try discriminate. injection Em as <- <-. exists sg. apply Hdie. exact I.
  - destruct (p_th (m_pool r) !! i) as [[]|] eqn:Ei; try discriminate. destruct (m_job r !! i) as [[q| |]|] eqn:Ej; try discriminate. destruct (m_conn r !! c) as [cn|] eqn:Ec; [|discriminate].
    injection Em as <- <-. pose proof (vi_at _ _ _ _ _ HI i) as Ha. fold r in Ha. rewrite Ej in Ha. cbn in Ha.
    pose proof (lent_bound _ _ _ HP Ei) as Hb.
    assert (Hg : forall y j, got_after r (set_conn c y j r) (v_got v) = v_got v).
    { intros y j. destruct (m_conn r !! p_next (m_pool r)) eqn:Ex; [unfold got_after; rewrite Ex; reflexivity|]. apply got_known; [exact Ex|]. cbn. rewrite lookup_insert_ne by lia. exact Ex. }
    eexists. apply (vinv_frame srv st0 evs v sg (MSend i) _ _ (SCalled q) HI); fold r; cbn [actor set_conn m_opt m_pool m_conn m_job]; auto.
    + intros j Hne. rewrite lookup_insert_ne by auto. auto.
    + constructor.
    + rewrite Ha. constructor.
    + rewrite Ei, lookup_insert. cbn. discriminate.
    + rewrite lookup_insert. left. reflexivity.
    + intros d. pose proof (vi_dom _ _ _ _ _ HI d) as Hdm. fold r in Hdm. rewrite Hdm. destruct (decide (c = d)) as [<-|Hne]; [rewrite lookup_insert, Ec; split; discriminate|]. rewrite lookup_insert_ne by exact Hne. reflexivity.
    + intros d x Hx. fold (set_conn c (Conn (cn_out cn ++ send (convert_to_message (request q))) (cn_in cn)) (<[i:=JSent q]> (m_job r)) r). rewrite Hg. destruct (decide (c = d)) as [<-|Hne].
      * rewrite lookup_insert in Hx. injection Hx as <-. destruct (vi_conn _ _ _ _ _ HI c cn Ec) as (n & A & pre & pend & B1 & B2 & B3). fold r in B3. exists n. split; [exact A|].
        assert (B : pend = [] /\ bytes_left (cn_in cn) = []).
        { destruct B3 as [(j & q' & W & _)|(_ & B)]; [|exact B]. destruct W as [W1 W2]. rewrite (lent_unique _ _ _ _ HP W1 Ei), Ej in W2. discriminate. }
        destruct B as [-> B4]. rewrite app_nil_r in B1. exists pre, (request_bytes (request q)). split; [rewrite request_is_sent, <- B1; reflexivity|]. split; [exact B2|].
        left. exists i, q. split; [split; cbn [m_pool m_job]; [exact Ei|apply lookup_insert]|]. left. rewrite upd_eq. auto.
      * rewrite lookup_insert_ne in Hx by exact Hne. destruct (vi_conn _ _ _ _ _ HI d x Hx) as (n & A & B). exists n. split; [exact A|].
        refine (conn_frame r _ sg _ i d x n _ _ _ B); cbn [set_conn m_pool m_job].
        -- intros j Hji. rewrite upd_ne, lookup_insert_ne by auto. auto.
        -- intros q' [W _]. congruence.
        -- intros q' [W _]. cbn [set_conn m_pool] in W. congruence.
  - destruct (p_th (m_pool r) !! i) as [[]|] eqn:Ei; try discriminate. destruct (m_job r !! i) as [[|q|]|] eqn:Ej; try discriminate. destruct (m_conn r !! c) as [cn|] eqn:Ec; [|discriminate].
    cbn [may] in Hmay. rewrite Ei, Ec in Hmay. apply bool_decide_eq_true in Hmay. pose proof (lent_bound _ _ _ HP Ei) as Hb.
    assert (Hg : forall y j, got_after r (set_conn c y j r) (v_got v) = v_got v).
    { intros y j. destruct (m_conn r !! p_next (m_pool r)) eqn:Ex; [unfold got_after; rewrite Ex; reflexivity|]. apply got_known; [exact Ex|]. cbn. rewrite lookup_insert_ne by lia. exact Ex. }
    destruct (vi_conn _ _ _ _ _ HI c cn Ec) as (n & A & pre & pend & B1 & B2 & B3). fold r in B3. destruct B3 as [(j & q' & W & B3)|(B3 & _)]; [|destruct (B3 i q); split; assumption].
    destruct (waits_unique r c j i q' q HP W (conj Ei Ej)) as [-> ->]. destruct B3 as [(_ & _ & B3)|(m & s' & C1 & -> & _ & C2 & C3)]; [contradiction|].
    rewrite C2 in Em. destruct (decode (kind_of q) m) as [vv er] eqn:Ed. injection Em as <- <-.
    eexists. apply (vinv_frame srv st0 evs v sg (MRecv i) _ _ (SDid vv er) HI); fold r; cbn [actor set_conn m_opt m_pool m_conn m_job]; auto.
    + intros j Hne. rewrite lookup_insert_ne by auto. auto.
    + cbn. repeat constructor.
    + rewrite C1. cbn. econstructor; [apply seg_did; exact Ed|constructor].
    + rewrite Ei, lookup_insert. cbn. discriminate.
    + rewrite lookup_insert. reflexivity.
    + intros d. pose proof (vi_dom _ _ _ _ _ HI d) as Hdm. fold r in Hdm. rewrite Hdm. destruct (decide (c = d)) as [<-|Hne]; [rewrite lookup_insert, Ec; split; discriminate|]. rewrite lookup_insert_ne by exact Hne. reflexivity.
    + intros d x Hx. fold (set_conn c (Conn (cn_out cn) s') (<[i:=JRet vv er]> (m_job r)) r). rewrite Hg. destruct (decide (c = d)) as [<-|Hne].
      * rewrite lookup_insert in Hx. injection Hx as <-. exists n. split; [exact A|]. exists pre, []. split; [exact B1|]. split; [exact B2|]. right. split; [|auto].
        intros j q' [W1 W2]. cbn [set_conn m_pool m_job] in W1, W2. rewrite (lent_unique _ _ _ _ HP W1 Ei), lookup_insert in W2. discriminate.
      * rewrite lookup_insert_ne in Hx by exact Hne. destruct (vi_conn _ _ _ _ _ HI d x Hx) as (n' & A' & B). exists n'. split; [exact A'|].
        refine (conn_frame r _ sg _ i d x n' _ _ _ B); cbn [set_conn m_pool m_job].
        -- intros j Hji. rewrite upd_ne, lookup_insert_ne by auto. auto.
        -- intros q' [W' _]. congruence.
        -- intros q' [W' _]. cbn [set_conn m_pool] in W'. congruence.
  - destruct (m_job r !! i) as [[| |vv er]|] eqn:Ej; try discriminate. destruct (pstep (PRelease i) (m_pool r)) as [[p' ep]|] eqn:Ep; [|discriminate]. injection Em as <- <-.
    destruct (pinv_step _ _ _ _ HP Ep) as [HP' _]. destruct (pstep_next _ _ _ _ Ep) as [Hn _]. pose proof (pstep_th _ _ _ _ Ep) as Hth. cbn in Hth.
    cbn [pstep] in Ep. destruct (p_th (m_pool r) !! i) as [[]|] eqn:Ei; try discriminate. unfold go in Ep. injection Ep as Ep _.
    assert (Ei' : p_th p' !! i = Some (PSend c)) by (rewrite <- Ep; cbn; apply lookup_insert). clear Ep.
    pose proof (vi_at _ _ _ _ _ HI i) as Ha. fold r in Ha. rewrite Ej in Ha. cbn in Ha.
    eexists. apply (vinv_quiet srv st0 evs v sg (MPut i) _ _ (SDid vv er) HI); fold r; cbn [actor set_pool m_opt m_pool m_conn m_job]; auto.
    + intros c' q' [_ B]. congruence.
    + intros c' q' [B _]. cbn [set_pool m_pool] in B. congruence.
    + constructor.
    + rewrite Ha. constructor.
    + rewrite Ei', Ej. cbn. eauto.
    + rewrite Ej. reflexivity.
Qed.
Lemma holder_of r c i : pinv (m_pool r) -> p_th (m_pool r) !! i = Some (Lent c) -> holder r c = Some i.
Proof.
  intros HP Hi. unfold holder.
  assert (A : forall l, (forall j pc, In (j, pc) l -> p_th (m_pool r) !! j = Some pc) -> In (i, Lent c) l ->
    head (omap (fun ip : nat * ppc => match snd ip with Lent d => if bool_decide (c = d) then Some (fst ip) else None | _ => None end) l) = Some i).
  { induction l as [|[j pc] l IH]; intros Hl Hin; [destruct Hin|]. cbn.
    destruct (match pc with Lent d => if bool_decide (c = d) then Some j else None | _ => None end) as [k|] eqn:Ek.
    - destruct pc as [| | | | | | |d| | |]; try discriminate. destruct (bool_decide_reflect (c = d)) as [<-|]; [|discriminate]. injection Ek as <-. cbn. f_equal.
      apply (lent_unique _ _ _ c HP); [apply Hl; left; reflexivity|exact Hi].
    - apply IH; [intros; apply Hl; right; assumption|]. destruct Hin as [Hin|Hin]; [|exact Hin]. injection Hin as -> ->. rewrite bool_decide_true in Ek by reflexivity. discriminate. }
  apply A.
  - intros j pc Hj. apply elem_of_map_to_list, elem_of_list_In, Hj.
  - apply elem_of_list_In, elem_of_map_to_list, Hi.
Qed.
Lemma take_eq_prefix (b l : gostr) : take (length b) l = b -> exists r, l = b ++ r.
Proof. intros E. exists (drop (length b) l). rewrite <- E at 1. symmetry. apply take_drop. Qed.
Lemma vinv_serve {S} srv st0 evs (v : live S) sg c args cs v' e : vinv srv st0 evs v sg -> vstep srv (VServe c args cs) v = Some (v', e) ->
  (forall w c args m cs, In (VServed w c args m cs) e -> delivers m cs) -> exists sg', vinv srv st0 (evs ++ e) v' sg'.
Proof.
  intros HI E HD. cbn [vstep] in E. set (r := v_cl v) in *. destruct (m_conn r !! c) as [x|] eqn:Ec; [|discriminate]. destruct (v_got v !! c) as [n|] eqn:Eg; [|discriminate].
  cbv zeta in E. destruct (bool_decide_reflect (take (length (request_bytes args)) (drop n (cn_out x)) = request_bytes args)) as [Et|]; [|discriminate].
  destruct (srv c args (v_st v)) as [st m] eqn:Es. injection E as <- <-. pose proof (vi_pool _ _ _ _ _ HI) as HP. fold r in HP.
  destruct (vi_conn _ _ _ _ _ HI c x Ec) as (n' & A & pre & pend & B1 & B2 & B3). rewrite Eg in A. injection A as <-. fold r in B3.
  assert (Ep : drop n (cn_out x) = pend) by (rewrite B1, <- B2; apply drop_app). rewrite Ep in Et. apply take_eq_prefix in Et as (rest & Et).
  destruct B3 as [(i & q & W & [(C1 & C2 & C3)|(? & ? & _ & C2 & _)])|(_ & C2 & _)];
    try (rewrite C2 in Et; symmetry in Et; apply app_eq_nil in Et as [Et _]; destruct (request_nonempty _ Et)).
  rewrite C2 in Et. rewrite <- (app_nil_r (request_bytes (request q))) in Et. apply request_unique in Et as [<- <-].
  assert (Hh : holder r c = Some i) by (apply holder_of; [exact HP|apply W]). rewrite Hh in *.
  specialize (HD _ _ _ _ _ (or_introl eq_refl)). destruct (HD (r_buf (cn_in x)) (r_src (cn_in x))) as (Hne & s' & H1 & H2 & _); [destruct (cn_in x); exact C3|].
  exists (upd sg i (SServed q c m)). destruct HI as [I1 I2 I3 I4 I5 I6 I7 I8]. fold r in I2, I4, I5, I6.
  split; cbn [v_cl v_st v_got set_conn m_pool m_job m_conn]; auto.
  - intros j. rewrite mine_app. unfold mine at 2. destruct (decide (j = i)) as [->|Hji].
    + rewrite upd_eq, filter_cons_True by reflexivity. apply (segs_app _ _ _ _ _ (I3 i)). rewrite C1. econstructor; [apply seg_serve|constructor].
    + rewrite upd_ne, filter_cons_False by (cbn; congruence). rewrite app_nil_r. apply I3.
  - intros j. destruct (decide (j = i)) as [->|Hji]; [|rewrite upd_ne by exact Hji; apply I4]. rewrite upd_eq, (proj2 W). right. eauto.
  - intros d. rewrite I5. destruct (decide (c = d)) as [<-|Hcd]; [rewrite lookup_insert, Ec; split; discriminate|]. rewrite lookup_insert_ne by exact Hcd. reflexivity.
  - intros d y Hy. destruct (decide (c = d)) as [<-|Hcd].
    + rewrite lookup_insert in Hy. injection Hy as <-. rewrite lookup_insert. eexists. split; [reflexivity|]. exists (cn_out x), []. cbn [cn_out cn_in]. rewrite app_nil_r. split; [reflexivity|].
      split; [rewrite B1, app_length, B2, C2; reflexivity|]. left. exists i, q. split; [exact W|]. right. exists m, s'. rewrite upd_eq. auto 6.
    + rewrite lookup_insert_ne in Hy by exact Hcd. rewrite lookup_insert_ne by exact Hcd. destruct (I6 d y Hy) as (k & A & B). exists k. split; [exact A|].
      refine (conn_frame r _ sg _ i d y k _ _ _ B); cbn [set_conn m_pool m_job].
      * intros j Hji. rewrite upd_ne by exact Hji. auto.
      * intros q' [W' _]. destruct W as [W _]. congruence.
      * intros q' [W' _]. cbn [set_conn m_pool] in W'. destruct W as [W _]. congruence.
  - apply (history_app _ _ _ _ _ _ I7). cbn. rewrite Es. auto.
  - intros w d a m' cs' H. apply in_app_or in H as [H|[H|[]]]; [eauto|]. injection H as <- _ _ _ _. eauto.
Qed.
Lemma vinv_step {S} srv st0 evs (v : live S) sg a v' e : vinv srv st0 evs v sg -> vstep srv a v = Some (v', e) -> well_delivered e -> exists sg', vinv srv st0 (evs ++ e) v' sg'.
Proof. destruct a as [a|c args cs]; intros HI E HD; [eapply vinv_client|eapply vinv_serve]; eauto. Qed.
Lemma vinv_init {S} srv o (st : S) : vinv srv st [] (new_live o st) (fun _ => SIdle).
Proof.
  split; cbn [new_live v_cl v_st v_got new_client m_pool m_job m_conn].
  - apply pinv_init.
  - intros i. cbn. rewrite !lookup_empty. reflexivity.
  - intros i. constructor.
  - intros i. rewrite lookup_empty. reflexivity.
  - intros c. rewrite lookup_empty. cbn. split; [lia|congruence].
  - intros c x H. rewrite lookup_empty in H. discriminate.
  - reflexivity.
  - intros w c args m cs [].
Qed.
Lemma vinv_exec {S} srv (st0 : S) l : forall evs v sg v' e, vinv srv st0 evs v sg -> vexec srv l v = Some (v', e) -> well_delivered e -> exists sg', vinv srv st0 (evs ++ e) v' sg'.
Proof.
  induction l as [|a l IH]; intros evs v sg v' e HI E HD; cbn in E.
  - injection E as <- <-. rewrite app_nil_r. eauto.
  - destruct (vstep srv a v) as [[v1 e1]|] eqn:E1; [|discriminate]. destruct (vexec srv l v1) as [[v2 e2]|] eqn:E2; [|discriminate]. injection E as <- <-.
    destruct (vinv_step _ _ _ _ _ _ _ _ HI E1) as (sg1 & HI1); [intros w c args m cs H; apply (HD w c args m cs), in_or_app; auto|].
    rewrite app_assoc. apply (IH (evs ++ e1) v1 sg1 v2 e2 HI1 E2). intros w c args m cs H; apply (HD w c args m cs), in_or_app; auto.
Qed.
Lemma vinv_run {S} srv o (st : S) l v e : vexec srv l (new_live o st) = Some (v, e) -> well_delivered e -> exists sg, vinv srv st e v sg.
Proof. intros E HD. destruct (vinv_exec srv st l [] _ _ v e (vinv_init srv o st) E HD) as (sg & H). eauto. Qed.

(** ** C190 *)
(** Full statement: the same without [well_delivered e], for replies in any pieces; false (C190_split_reply_refuted below), since conn.go
    reads a bulk string with one Read.
    Against a server that serves one request at a time, the remote client is linearizable, as long as replies are read as they were
    sent ([delivers]: C57/C58 say when).  For every schedule of every number of goroutines, and every order in which the server serves
    the connections: each goroutine's calls are complete calls one after the other ([segs]), where between the call and its return the
    server served this very request exactly once, and the call returned what this reply decodes to (or no connection was opened, the server saw
    nothing and the call returned the error); the server served nothing else; and the replies are those of a sequential run. *)
Theorem C190_linearizable_partial {S} srv o (st : S) l v e : vexec srv l (new_live o st) = Some (v, e) -> well_delivered e ->
  (forall i, exists s, segs SIdle (mine i e) s) /\ (forall w c args m cs, In (VServed w c args m cs) e -> exists i, w = Some i) /\ history srv st e (v_st v).
Proof. intros E HD. destruct (vinv_run _ _ _ _ _ _ E HD) as (sg & HI). split; [intros i; exists (sg i); apply HI|]. split; apply HI. Qed.
(** A call that has sent its request is not lost: the server can read it, or the reply is there and can be read. *)
Theorem C190_answered {S} srv o (st : S) l v e i c q : vexec srv l (new_live o st) = Some (v, e) -> well_delivered e -> m_dead (v_cl v) = false ->
  p_th (m_pool (v_cl v)) !! i = Some (Lent c) -> m_job (v_cl v) !! i = Some (JSent q) ->
  (forall cs, exists v', vstep srv (VServe c (request q) cs) v = Some (v', [VServed (Some i) c (request q) (snd (srv c (request q) (v_st v))) cs])) \/
  (exists v' x er, vstep srv (VDo (MRecv i)) v = Some (v', [VEv (MDid i q (Some c) x er)])).
Proof.
  intros E HD Hdead Hi Hj. destruct (vinv_run _ _ _ _ _ _ E HD) as (sg & HI). pose proof (vi_pool _ _ _ _ _ HI) as HP.
  pose proof (proj1 (vi_dom _ _ _ _ _ HI c) (lent_bound _ _ _ HP Hi)) as Hc. destruct (m_conn (v_cl v) !! c) as [x|] eqn:Ec; [|congruence].
  destruct (vi_conn _ _ _ _ _ HI c x Ec) as (n & A & pre & pend & B1 & B2 & B3). destruct B3 as [(j & q' & W & B3)|(B3 & _)]; [|destruct (B3 i q); split; assumption].
  destruct (waits_unique _ c j i q' q HP W (conj Hi Hj)) as [-> ->]. destruct B3 as [(_ & -> & _)|(m & s' & _ & _ & C1 & C2 & _)].
  - left. intros cs. cbn [vstep]. rewrite Ec, A. cbv zeta. rewrite B1, <- B2, drop_app, firstn_all, bool_decide_true by reflexivity.
    rewrite (holder_of _ _ _ HP Hi). destruct (srv c (request q) (v_st v)) as [st' m]. eauto.
  - right. cbn [vstep may]. rewrite Hi, Ec, bool_decide_true by exact C1. unfold mstep. rewrite Hdead, Hi, Hj, Ec, C2. destruct (decode (kind_of q) m) as [y er]. cbn. eauto.
Qed.
(** A server that keeps strings *)
Definition kv (c : nat) (args : list gostr) (st : gmap gostr gostr) : gmap gostr gostr * msg :=
  match args with
  | [cmd; k; x] => if bool_decide (cmd = bs "set") then (<[k := x]> st, MSimple (bs "OK")) else (st, MError (bs "ERR"))
  | [cmd; k] => if bool_decide (cmd = bs "get") then (st, match st !! k with Some x => MBulk x | None => MNil end) else (st, MError (bs "ERR"))
  | _ => (st, MError (bs "ERR"))
  end.
(** to get a connection: open one, and take it from the channel *)
Definition connect (i : nat) : list vact := map VDo [MRun i; MRun i; MRun i; MDial i (inr []); MRun i; MRun i; MRun i].
(** Without the premise: a value that comes in two pieces is read as one the server never had, and what is left of it is the reply to the
    next call on the connection, of another goroutine, about another key, whose request the server has not even read. *)
Definition split_run : list vact :=
  (VDo (MCall 1%nat (QGet (bs "k"))) :: connect 1%nat ++
   [VDo (MSend 1%nat); VServe 0%nat [bs "get"; bs "k"] [bs "$8" ++ [CR; LF] ++ bs "abc"; [CR; LF] ++ bs "+HI" ++ [CR; LF]]; VDo (MRecv 1%nat); VDo (MPut 1%nat); VDo (MRun 1%nat);
    VDo (MCall 2%nat (QGet (bs "j"))); VDo (MRun 2%nat); VDo (MSend 2%nat); VDo (MRecv 2%nat)]).
Theorem C190_split_reply_refuted : match vexec kv split_run (new_live (ROpt 1 0 []) {[bs "k" := bs "abc" ++ [CR; LF] ++ bs "+HI"]}) with
  | Some (_, [VCalled 1%nat _; VServed (Some 1%nat) 0%nat _ (MBulk s) cs; VEv (MDid 1%nat _ _ (VStr x) er); VEv (MReturned 1%nat _ _); VCalled 2%nat (QGet j); VEv (MDid 2%nat _ _ (VStr y) er')]) =>
      s = bs "abc" ++ [CR; LF] ++ bs "+HI" /\ concat cs = serialize (MBulk s) /\ x = bs "abc" ++ [x00; x00; x00; x00; x00] /\ er = None /\ j = bs "j" /\ y = bs "HI" /\ er' = None
  | _ => False end.
Proof. vm_compute. repeat split; reflexivity. Qed.
(** Two goroutines on two connections: both have sent their request, the server serves the second first, and both calls succeed. *)
Definition two_run : list vact :=
  VDo (MCall 1%nat (QSet (bs "k") (bs "v"))) :: connect 1%nat ++ VDo (MCall 2%nat (QGet (bs "k"))) :: connect 2%nat ++
  map VDo [MSend 1%nat; MSend 2%nat] ++ [VServe 1%nat [bs "get"; bs "k"] [bs "$1" ++ [CR; LF] ++ bs "u" ++ [CR; LF]]; VServe 0%nat [bs "set"; bs "k"; bs "v"] [bs "+"; bs "OK"; [CR; LF]]] ++
  map VDo [MRecv 1%nat; MPut 1%nat; MRun 1%nat; MRecv 2%nat; MPut 2%nat; MRun 2%nat].
Definition two_events : list vevent :=
  [VCalled 1%nat (QSet (bs "k") (bs "v")); VCalled 2%nat (QGet (bs "k")); VServed (Some 2%nat) 1%nat [bs "get"; bs "k"] (MBulk (bs "u")) [bs "$1" ++ [CR; LF] ++ bs "u" ++ [CR; LF]];
   VServed (Some 1%nat) 0%nat [bs "set"; bs "k"; bs "v"] (MSimple (bs "OK")) [bs "+"; bs "OK"; [CR; LF]];
   VEv (MDid 1%nat (QSet (bs "k") (bs "v")) (Some 0%nat) (VStr []) None); VEv (MReturned 1%nat (VStr []) None);
   VEv (MDid 2%nat (QGet (bs "k")) (Some 1%nat) (VStr (bs "u")) None); VEv (MReturned 2%nat (VStr (bs "u")) None)].
Example C190_ex : option_map snd (vexec kv two_run (new_live (ROpt 2 0 []) {[bs "k" := bs "u"]})) = Some two_events /\ well_delivered two_events.
Proof.
  split; [vm_compute; reflexivity|]. intros w c args m cs H. cbn [In two_events] in H. repeat destruct H as [H|H]; try discriminate; try contradiction; injection H as <- <- <- <- <-.
  - apply (delivers_whole (MBulk (bs "u")) (serialize (MBulk (bs "u")))); [apply wire_serialize; exact I|vm_compute; lia].
  - apply delivers_steady; [vm_compute; repeat split; set_solver|reflexivity].
Qed.

(** ** C191 *)
(** what the calls of all goroutines returned without error, and what the replies without error of the server say *)
Definition returned (l : list vevent) : list cval := omap (fun x => match x with VEv (MReturned _ v None) => Some v | _ => None end) l.
Definition replied (k : kind) (l : list vevent) : list cval := omap (fun x => match x with VServed _ _ _ m _ => match decode k m with (v, None) => Some v | _ => None end | _ => None end) l.
Lemma seg_step_det s x s1 s2 : seg_step s x s1 -> seg_step s x s2 -> s1 = s2.
Proof. intros H1 H2. destruct H1; inversion H2; subst; congruence. Qed.
Lemma segs_det l : forall s s1 s2, segs s l s1 -> segs s l s2 -> s1 = s2.
Proof.
  induction l as [|x l IH]; intros s s1 s2 H1 H2; inversion H1; inversion H2; subst; [reflexivity|].
  match goal with A : seg_step s x _, B : seg_step s x _ |- _ => pose proof (seg_step_det _ _ _ _ A B); subst end. eauto.
Qed.
Lemma segs_app_inv l : forall s l' s2, segs s (l ++ l') s2 -> exists s1, segs s l s1 /\ segs s1 l' s2.
Proof.
  induction l as [|x l IH]; intros s l' s2 H; cbn in H; [exists s; split; [constructor|exact H]|]. inversion H as [|? ? s1 ? ? A B]; subst.
  destruct (IH _ _ _ B) as (s3 & C & D). exists s3. split; [econstructor; eauto|exact D].
Qed.
(** the result a goroutine has, or that is on the way to it *)
Definition coming (k : kind) (s : seg) : option cval :=
  match s with SServed _ _ m => match decode k m with (v, None) => Some v | _ => None end | SDid v None => Some v | _ => None end.
Definition asking (s : seg) : option rcall := match s with SCalled q | SServed q _ _ => Some q | _ => None end.
(** what the server served was asked for *)
Lemma served_called l : (forall i, exists s, segs SIdle (mine i l) s) -> (forall w c args m cs, In (VServed w c args m cs) l -> exists i, w = Some i) ->
  forall w c args m cs, In (VServed w c args m cs) l -> exists i q, In (VCalled i q) l /\ args = request q.
Proof.
  intros Hs Hw w c args m cs H. destruct (Hw _ _ _ _ _ H) as (i & ->). destruct (Hs i) as (s & Hi).
  assert (Hm : In (VServed (Some i) c args m cs) (mine i l)) by (apply elem_of_list_In; unfold mine; apply elem_of_list_filter; split; [reflexivity|apply elem_of_list_In, H]).
  assert (G : forall l' s0 s1, segs s0 l' s1 -> In (VServed (Some i) c args m cs) l' -> exists q, args = request q /\ (asking s0 = Some q \/ exists j, In (VCalled j q) l')).
  { induction 1 as [|s0 x s1 l' s2 Hx Hl IH]; intros Hin; [destruct Hin|]. destruct Hin as [->|Hin].
    - inversion Hx; subst. cbn. eauto.
    - destruct (IH Hin) as (q & E & [Hq|(j & Hj)]); [|exists q; split; [exact E|]; right; exists j; right; exact Hj].
      exists q. split; [exact E|]. destruct Hx; try discriminate; cbn in Hq; injection Hq as <-; [right; eexists; left; reflexivity|left; reflexivity]. }
  destruct (G _ _ _ Hi Hm) as (q & E & [Hq|(j & Hj)]); [discriminate|]. exists j, q. split; [|exact E].
  apply elem_of_list_In in Hj. apply elem_of_list_filter in Hj as [_ Hj]. apply elem_of_list_In, Hj.
Qed.
Lemma results_once k l : (forall i, exists s, segs SIdle (mine i l) s) -> (forall i q, In (VCalled i q) l -> kind_of q = k) ->
  (forall w c args m cs, In (VServed w c args m cs) l -> exists i, w = Some i) -> NoDup (replied k l) ->
  exists sg, (forall i, segs SIdle (mine i l) (sg i)) /\ NoDup (returned l) /\ (forall v, v ∈ returned l -> v ∈ replied k l) /\
    (forall i q, asking (sg i) = Some q -> exists j, In (VCalled j q) l) /\
    (forall i v, coming k (sg i) = Some v -> v ∈ replied k l /\ v ∉ returned l) /\ (forall i j v, coming k (sg i) = Some v -> coming k (sg j) = Some v -> i = j).
Proof.
  induction l as [|x l IH] using rev_ind; intros Hs Hk Hw Hd.
  - exists (fun _ => SIdle). split; [intros; constructor|]. split; [constructor|]. split; [intros v Hv; inversion Hv|]. split; [discriminate|]. split; discriminate.
  - unfold replied in Hd. rewrite omap_app in Hd. fold (replied k l) in Hd. apply NoDup_app in Hd as (Hd & Hdx & _).
    destruct IH as (sg & A1 & A2 & A3 & A4 & A5 & A6); auto.
    { intros i. destruct (Hs i) as (s & H). rewrite mine_app in H. apply segs_app_inv in H as (s1 & H & _). eauto. }
    { intros i q H. apply (Hk i q), in_or_app. auto. }
    { intros w c args m cs H. apply (Hw w c args m cs), in_or_app. auto. }
    assert (Ho : exists i, owner x = Some i).
    { destruct x as [j q|w c args m cs|[j q c v e|j v e]]; cbn; eauto. apply (Hw w c args m cs), in_or_app. right. left. reflexivity. }
    destruct Ho as (i & Ho). destruct (Hs i) as (s & H). rewrite mine_app in H. apply segs_app_inv in H as (s1 & H1 & H2). pose proof (segs_det _ _ _ _ H1 (A1 i)) as ->.
    unfold mine in H2. rewrite filter_cons_True in H2 by exact Ho. cbn in H2. inversion H2 as [|? ? s2 ? ? H3 H4]; subst. inversion H4; subst. clear H2 H4 H1.
    assert (B1 : forall j, segs SIdle (mine j (l ++ [x])) (upd sg i s j)).
    { intros j. rewrite mine_app. unfold mine at 2. destruct (decide (j = i)) as [->|Hne].
      - rewrite upd_eq, filter_cons_True by exact Ho. apply (segs_app _ _ _ _ _ (A1 i)). econstructor; [exact H3|constructor].
      - rewrite upd_ne by exact Hne. rewrite filter_cons_False by congruence. rewrite app_nil_r. apply A1. }
    assert (C1 : forall y, In y l -> In y (l ++ [x])) by (intros; apply in_or_app; auto).
    assert (C2 : In x (l ++ [x])) by (apply in_or_app; right; left; reflexivity).
    exists (upd sg i s). split; [exact B1|]. unfold returned, replied. rewrite !omap_app. fold (returned l) (replied k l).
    remember (sg i) as si eqn:Esi. symmetry in Esi.
    assert (Hask : forall q, asking s = Some q -> exists j, In (VCalled j q) (l ++ [x])).
    { intros q' Hq. destruct H3; try discriminate; cbn in Hq; injection Hq as <-; [eauto|]. destruct (A4 i q) as (j & Hj); [rewrite Esi; reflexivity|]. eauto. }
    assert (B4 : forall j q, asking (upd sg i s j) = Some q -> exists j', In (VCalled j' q) (l ++ [x])).
    { intros j q Hq. destruct (decide (j = i)) as [->|Hne]; [rewrite upd_eq in Hq; auto|]. rewrite upd_ne in Hq by exact Hne. destruct (A4 j q Hq) as (j' & Hj). eauto. }
    assert (Hcase : let R := returned [x] in let P := replied k [x] in
      (R = [] /\ P = [] /\ (coming k s = None \/ coming k s = coming k si)) \/ (R = [] /\ P = option_list (coming k s)) \/ (P = [] /\ R = option_list (coming k si) /\ coming k s = None)).
    { destruct H3 as [j q|w c q m cs|j q c m v e Hdec|j q e|j v e].
      - left. auto.
      - right. left. split; [reflexivity|]. cbn. destruct (decode k m) as [v [e|]]; reflexivity.
      - left. split; [reflexivity|]. split; [reflexivity|]. right. destruct (A4 i q) as (j' & Hj); [rewrite Esi; reflexivity|]. pose proof (Hk _ _ (C1 _ Hj)) as <-. cbn. rewrite Hdec. destruct e; reflexivity.
      - left. auto.
      - right. right. split; [reflexivity|]. split; [|reflexivity]. cbn. destruct e; reflexivity. }
    clear H3. fold (returned [x]) (replied k [x]) in *. cbv zeta in Hcase.
    assert (D5 : forall v, coming k si = Some v -> v ∈ replied k l /\ v ∉ returned l) by (intros v; rewrite <- Esi; apply A5).
    assert (D6 : forall j v, coming k si = Some v -> coming k (sg j) = Some v -> i = j) by (intros j v; rewrite <- Esi; apply A6).
    destruct Hcase as [(-> & -> & Hn)|[(-> & E)|(-> & E & Hn)]]; rewrite ?app_nil_r.
    + split; [exact A2|]. split; [exact A3|]. split; [exact B4|]. split.
      * intros j v Hv. destruct (decide (j = i)) as [->|Hne]; [rewrite upd_eq in Hv|rewrite upd_ne in Hv by exact Hne; eauto]. destruct Hn as [Hn|Hn]; [congruence|]. apply D5. congruence.
      * intros j j' v. unfold upd. destruct (decide (j = i)) as [->|Hne], (decide (j' = i)) as [->|Hne']; auto; [| |apply A6].
        -- intros Hv Hv'. destruct Hn as [Hn|Hn]; [congruence|]. eapply D6; [|exact Hv']. congruence.
        -- intros Hv Hv'. destruct Hn as [Hn|Hn]; [congruence|]. symmetry. eapply D6; [|exact Hv]. congruence.
    + assert (F : forall v, coming k s = Some v -> v ∈ replied k [x] /\ v ∉ replied k l).
      { intros v Hv. rewrite E, Hv. cbn. split; [left|]. intros H. apply (Hdx v H). fold (replied k [x]). rewrite E, Hv. left. }
      split; [exact A2|]. split; [intros v Hv; apply elem_of_app; auto|]. split; [exact B4|]. split.
      * intros j v Hv. destruct (decide (j = i)) as [->|Hne]; [rewrite upd_eq in Hv|rewrite upd_ne in Hv by exact Hne; destruct (A5 _ _ Hv); split; [apply elem_of_app; auto|assumption]].
        destruct (F v Hv) as [F1 F2]. split; [apply elem_of_app; auto|]. intros H. apply F2, A3, H.
      * intros j j' v. unfold upd. destruct (decide (j = i)) as [->|Hne], (decide (j' = i)) as [->|Hne']; auto; [| |apply A6].
        -- intros Hv Hv'. destruct (F v Hv) as [_ []]. apply (A5 _ _ Hv').
        -- intros Hv' Hv. destruct (F v Hv) as [_ []]. apply (A5 _ _ Hv').
    + rewrite E. destruct (coming k si) as [v|] eqn:Ec; cbn [option_list]; rewrite ?app_nil_r.
      * destruct (D5 v eq_refl) as [G1 G2]. split; [|split; [|split; [exact B4|split]]].
        -- apply NoDup_app. split; [exact A2|]. split; [intros y Hy Hy'; apply elem_of_list_singleton in Hy' as ->; auto|apply NoDup_singleton].
        -- intros y Hy. apply elem_of_app in Hy as [Hy|Hy]; [auto|]. apply elem_of_list_singleton in Hy as ->. exact G1.
        -- intros j y Hy. destruct (decide (j = i)) as [->|Hne]; [rewrite upd_eq in Hy; congruence|]. rewrite upd_ne in Hy by exact Hne. destruct (A5 _ _ Hy) as [K1 K2]. split; [exact K1|].
           intros H. apply elem_of_app in H as [H|H]; [auto|]. apply elem_of_list_singleton in H as ->. apply Hne. symmetry. exact (D6 j v eq_refl Hy).
        -- intros j j' y. unfold upd. destruct (decide (j = i)) as [->|Hne], (decide (j' = i)) as [->|Hne']; auto; try congruence. apply A6.
      * split; [exact A2|]. split; [exact A3|]. split; [exact B4|]. split.
        -- intros j y Hy. destruct (decide (j = i)) as [->|Hne]; [rewrite upd_eq in Hy; congruence|]. rewrite upd_ne in Hy by exact Hne. eauto.
        -- intros j j' y. unfold upd. destruct (decide (j = i)) as [->|Hne], (decide (j' = i)) as [->|Hne']; auto; try congruence. apply A6.
Qed.
(** A server that counts *)
Definition counters (c : nat) (args : list gostr) (st : gmap gostr Z) : gmap gostr Z * msg :=
  match args with
  | [cmd; k] => let n := default 0 (st !! k) + 1 in
                if bool_decide (cmd = bs "Incr") && (- 2 ^ 63 <=? n) && (n <? 2 ^ 63) then (<[k := n]> st, MInt n) else (st, MError (bs "ERR"))
  | _ => (st, MError (bs "ERR"))
  end.
Definition in_pieces (l : list vevent) : Prop := forall w c args m cs, In (VServed w c args m cs) l -> concat cs = serialize m.
Lemma counting k l : forall st st', history counters st l st' -> (forall w c args m cs, In (VServed w c args m cs) l -> args = [bs "Incr"; k]) ->
  NoDup (replied KInt l) /\ (forall v, v ∈ replied KInt l -> exists n, v = VInt n /\ default 0 (st !! k) < n).
Proof.
  induction l as [|x l IH]; intros st st' H Ha.
  - split; [constructor|]. intros v Hv; inversion Hv.
  - destruct x as [i q|w c args m cs|y].
    1,3: destruct (IH st st' H) as (I1 & I2); [intros; eapply Ha; right; eassumption|]; split; [exact I1|exact I2].
    pose proof (Ha _ _ _ _ _ (or_introl eq_refl)) as ->. cbn [history] in H. destruct H as [Hm H].
    destruct (IH _ _ H) as (I1 & I2); [intros; eapply Ha; right; eassumption|]. clear IH H Ha.
    assert (Hx : (m = MError (bs "ERR") /\ fst (counters c [bs "Incr"; k] st) = st) \/ (m = MInt (default 0 (st !! k) + 1) /\ fst (counters c [bs "Incr"; k] st) = <[k := default 0 (st !! k) + 1]> st)).
    { unfold counters in *. destruct (bool_decide (bs "Incr" = bs "Incr") && (- 2 ^ 63 <=? default 0 (st !! k) + 1) && (default 0 (st !! k) + 1 <? 2 ^ 63)); auto. }
    destruct Hx as [(-> & E)|(-> & E)]; rewrite E in *.
    + split; [exact I1|exact I2].
    + rewrite lookup_insert in I2. cbn [default] in I2. unfold replied. cbn [omap list_omap decode parse]. fold (replied KInt l). split.
      * constructor; [|exact I1]. intros Hin. destruct (I2 _ Hin) as (n & En & Hlt). injection En as <-. cbn in Hlt. lia.
      * intros v Hv. apply elem_of_cons in Hv as [->|Hv]; [eexists; split; [reflexivity|lia]|]. destruct (I2 _ Hv) as (n & -> & Hlt). exists n. cbn in Hlt. split; [reflexivity|lia].
Qed.
Lemma replies_from {S} srv l : forall (v : live S) v' e, vexec srv l v = Some (v', e) -> forall w c args m cs, In (VServed w c args m cs) e -> exists st, m = snd (srv c args st).
Proof.
  induction l as [|a l IH]; intros v v' e E w c args m cs H; cbn in E; [injection E as <- <-; destruct H|].
  destruct (vstep srv a v) as [[v1 e1]|] eqn:E1; [|discriminate]. destruct (vexec srv l v1) as [[v2 e2]|] eqn:E2; [|discriminate]. injection E as <- <-.
  apply in_app_or in H as [H|H]; [|eauto]. destruct a as [a|d args' cs']; cbn [vstep] in E1.
  - destruct (may a (v_cl v)); [|discriminate]. destruct (mstep a (v_cl v)) as [[r e0]|]; [|discriminate]. injection E1 as <- <-. destruct (quiet_own _ _ _ _ _ _ _ H).
  - destruct (m_conn (v_cl v) !! d); [|discriminate]. destruct (v_got v !! d); [|discriminate]. cbv zeta in E1. destruct (bool_decide _); [|discriminate].
    destruct (srv d args' (v_st v)) as [st m'] eqn:Es. injection E1 as <- <-. destruct H as [H|[]]. injection H as <- <- <- <- <-. exists (v_st v). rewrite Es. reflexivity.
Qed.
Lemma err_steady : steady (MError (bs "ERR")).
Proof. vm_compute. repeat split; set_solver. Qed.
(** No number is handed out twice: against a server that counts, all calls of Incr that return without an error return different
    numbers, above the one the server had -- whatever the number of goroutines, the size of the pool, the schedule, failed dials, and
    the pieces in which the replies arrive. *)
Theorem C191_numbers_once k o st l v e : vexec counters l (new_live o st) = Some (v, e) -> in_pieces e -> (forall i q, In (VCalled i q) e -> q = QIncr k) ->
  NoDup (returned e) /\ forall x, x ∈ returned e -> exists n, x = VInt n /\ default 0 (st !! k) < n.
Proof.
  intros E Hp Hq.
  assert (HD : well_delivered e).
  { intros w c args m cs H. apply delivers_steady; [|exact (Hp _ _ _ _ _ H)]. destruct (replies_from _ _ _ _ _ E _ _ _ _ _ H) as (st' & ->). unfold counters.
    destruct args as [|cmd [|k' [|z ?]]]; try exact err_steady. cbv zeta.
    destruct (bool_decide (cmd = bs "Incr") && (- 2 ^ 63 <=? default 0 (st' !! k') + 1) && (default 0 (st' !! k') + 1 <? 2 ^ 63)) eqn:Eb; [|exact err_steady].
    apply andb_true_iff in Eb as [Eb E2]. apply andb_true_iff in Eb as [_ E1]. cbn [snd steady]. unfold int64. lia. }
  destruct (C190_linearizable_partial _ _ _ _ _ _ E HD) as (H1 & H2 & H3).
  assert (Hk : forall i q, In (VCalled i q) e -> kind_of q = KInt) by (intros i q H; rewrite (Hq i q H); reflexivity).
  assert (Ha : forall w c args m cs, In (VServed w c args m cs) e -> args = [bs "Incr"; k]).
  { intros w c args m cs H. destruct (served_called e H1 H2 w c args m cs H) as (i & q & A & ->). rewrite (Hq i q A). reflexivity. }
  destruct (counting k e _ _ H3 Ha) as [C1 C2]. destruct (results_once KInt e H1 Hk H2 C1) as (_ & _ & R1 & R2 & _). split; [exact R1|]. intros x Hx. apply C2, R2, Hx.
Qed.
(** Two goroutines, replies byte by byte and crossing *)
Definition incr_run : list vact :=
  VDo (MCall 1%nat (QIncr (bs "k"))) :: connect 1%nat ++ VDo (MCall 2%nat (QIncr (bs "k"))) :: connect 2%nat ++
  map VDo [MSend 1%nat; MSend 2%nat] ++ [VServe 1%nat [bs "Incr"; bs "k"] [bs ":"; bs "6"; [CR]; [LF]]; VServe 0%nat [bs "Incr"; bs "k"] [bs ":7"; [CR; LF]]] ++
  map VDo [MRecv 1%nat; MPut 1%nat; MRun 1%nat; MRecv 2%nat; MPut 2%nat; MRun 2%nat].
Definition incr_events : list vevent :=
  [VCalled 1%nat (QIncr (bs "k")); VCalled 2%nat (QIncr (bs "k")); VServed (Some 2%nat) 1%nat [bs "Incr"; bs "k"] (MInt 6) [bs ":"; bs "6"; [CR]; [LF]];
   VServed (Some 1%nat) 0%nat [bs "Incr"; bs "k"] (MInt 7) [bs ":7"; [CR; LF]];
   VEv (MDid 1%nat (QIncr (bs "k")) (Some 0%nat) (VInt 7) None); VEv (MReturned 1%nat (VInt 7) None); VEv (MDid 2%nat (QIncr (bs "k")) (Some 1%nat) (VInt 6) None); VEv (MReturned 2%nat (VInt 6) None)].
Example C191_ex : option_map snd (vexec counters incr_run (new_live (ROpt 2 0 []) {[bs "k" := 5]})) = Some incr_events /\ returned incr_events = [VInt 7; VInt 6] /\
  in_pieces incr_events /\ (forall i q, In (VCalled i q) incr_events -> q = QIncr (bs "k")).
Proof.
  split; [vm_compute; reflexivity|]. split; [reflexivity|]. split.
  - intros w c args m cs H. cbn [In incr_events] in H. repeat destruct H as [H|H]; try discriminate; try contradiction; injection H as <- <- <- <- <-; reflexivity.
  - intros i q H. cbn [In incr_events] in H. repeat destruct H as [H|H]; try discriminate; try contradiction; injection H as <- <-; reflexivity.
Qed.
