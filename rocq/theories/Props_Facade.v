(** * Props_Facade: the client made by New as its user sees it (C128-C132) *)
From stdpp Require Import gmap.
From Verif Require Import Base GoFloat CacheModel CacheSpec CacheAbs CacheRefine CacheRefineH CacheMain CacheLib RespModel RespSpec RespLib RdbModel RdbSpec RdbLib Props_Rdb ReplModel Props_Repl.
From Verif Require Import ClientModel PoolModel RemoteModel Props_Remote FacadeModel.

(** the messages the handler took, and the value the last of the calls [l] that set [k] gave it *)
Definition handled (evs : list fevent) : list rmsg := took (omap (fun e => match e with FV e => Some e | _ => None end) evs).
Definition latest (k : gostr) (l : list CacheModel.call) : option gostr :=
  foldl (fun a c => match c with CSet k' v => if bool_decide (k' = k) then Some v else a | _ => a end) None l.
Definition reply_for (o : option gostr) : gret gostr := match o with Some v => (text v, None) | None => ([], Some ErrKeyNil) end.

Lemma handled_app a b : handled (a ++ b) = handled a ++ handled b.
Proof. unfold handled. rewrite omap_app. apply took_app. Qed.
Lemma handled_fv e : handled (map FV e) = took e.
Proof. unfold handled. f_equal. induction e as [|x e IH]; [reflexivity|]. cbn [map omap list_omap]. f_equal. exact IH. Qed.
Lemma handled_fm e : handled (map FM e) = [].
Proof. unfold handled. replace (omap _ (map FM e)) with (@nil revent); [reflexivity|]. induction e as [|x e IH]; [reflexivity|exact IH]. Qed.
Lemma latest_snoc k l k' v : latest k (l ++ [CSet k' v]) = if bool_decide (k' = k) then Some v else latest k l.
Proof. unfold latest. rewrite foldl_app. reflexivity. Qed.

Definition mirror (l : list CacheModel.call) (w : world) : Prop :=
  ready w /\ forall k, view w k = (match latest k l with Some v => Some (CV (try_int64 v)) | None => None end, None).
Lemma mirror_set l w t k v w' r : mirror l w -> run_call t (CSet k v) w = Done w' r -> mirror (l ++ [CSet k v]) w'.
Proof.
  intros [Hr Hv] E. destruct (run_single _ k _ _ _ _ Hr E eq_refl) as (Ha & Hr' & Hne). split; [exact Hr'|]. intros k'. rewrite latest_snoc.
  destruct (bool_decide_reflect (k = k')) as [<-|Hk]; [|rewrite Hne by congruence; apply Hv].
  cbn [abs1] in Ha. injection Ha as Ha _. rewrite <- Ha. unfold put. rewrite Hv. reflexivity.
Qed.
Lemma mirror_get l w t k : mirror l w -> exists w', run_call t (CGet k) w = Done w' (RStr (reply_for (latest k l))) /\ mirror l w'.
Proof.
  intros [Hr Hv]. destruct (run_single_ex (CGet k) k t w (view w k) (RStr (reply_for (latest k l))) Hr eq_refl) as (w' & E & Hr' & Hk & Hne).
  - cbn [abs1]. rewrite Hv. destruct (latest k l) as [v|]; cbn [purge fst reply_for]; [|reflexivity]. unfold fmt_cret. cbn [fmt_cell]. rewrite fmt_try. reflexivity.
  - exists w'. split; [exact E|]. split; [exact Hr'|]. intros k'. destruct (decide (k' = k)) as [->|Hk']; [rewrite Hk; apply Hv|rewrite Hne by exact Hk'; apply Hv].
Qed.
Lemma mirror_new t : mirror [] (new_world t).
Proof. split; [apply ready_new|]. intros k. unfold view, new_world, cellat. cbn. rewrite !lookup_empty. reflexivity. Qed.

Lemma loop_inv_world sel (P : list CacheModel.call -> world -> Prop) ms net s l w : P (set_calls sel l) w -> loop_inv sel P ms net s l -> loop_inv sel P ms net (set_world w s) l.
Proof. intros HP (H1 & _ & H3 & H4). split; [exact H1|]. split; [exact HP|]. split; [exact H3|exact H4]. Qed.
Lemma loop_inv_dead sel (P : list CacheModel.call -> world -> Prop) ms net s l s' e : loop_inv sel P ms net s l -> crash s = Some (s', e) -> loop_inv sel P ms net s' l.
Proof. intros (H1 & H2 & H3 & H4) E. injection E as <- <-. split; [exact H1|]. split; [exact H2|]. split; [exact H3|exact H4]. Qed.

(** what the steps of the user do to the replication side *)
Lemma fstep_cases sel a f f' e : fstep sel a f = Some (f', e) -> f_dead f = false /\
  match a with
  | FRepl a => exists s ev, rstep sel a (f_repl f) = Some (s, ev) /\ f_repl f' = s /\ e = map FV ev /\ f_redis f' = match ev with [VNew true] => Some redis_client | _ => f_redis f end
  | FGet t k => returned (f_repl f) = true /\ f_redis f' = f_redis f /\
      ((exists w r, run_call t (CGet k) (r_w (f_repl f)) = Done w (RStr r) /\ f_repl f' = set_world w (f_repl f) /\ e = [FGot k r]) \/
       (run_call t (CGet k) (r_w (f_repl f)) = EPanic /\ crash (f_repl f) = Some (f_repl f', [VCrash]) /\ e = [FCrash]))
  | FSet i k v => returned (f_repl f) = true /\
      ((exists m m' ev, f_redis f = Some m /\ mstep (MCall i (QSet k v)) m = Some (m', ev) /\ f' = Fa (f_repl f) (Some m') /\ e = map FM ev) \/
       (f_redis f = None /\ f_redis f' = None /\ crash (f_repl f) = Some (f_repl f', [VCrash]) /\ e = [FCrash]))
  | FRemote a => exists m m' ev, f_redis f = Some m /\ mstep a m = Some (m', ev) /\ f' = Fa (f_repl f) (Some m') /\ e = map FM ev /\ forall i q, a <> MCall i q
  | FStop => returned (f_repl f) = true /\ f' = f /\ e = []
  end.
Proof.
  unfold fstep. destruct (f_dead f); [discriminate|]. intros E. split; [reflexivity|].
  assert (Hon : forall a, on_redis a f = Some (f', e) -> exists m m' ev, f_redis f = Some m /\ mstep a m = Some (m', ev) /\ f' = Fa (f_repl f) (Some m') /\ e = map FM ev).
  { clear. intros a E. unfold on_redis in E. destruct (f_redis f) as [m|]; [|discriminate]. destruct (mstep a m) as [[m' ev]|] eqn:EM; [|discriminate]. injection E as <- <-. eauto 10. }
  destruct a as [a|a|t k|i k v|].
  - destruct (rstep sel a (f_repl f)) as [[s ev]|]; [|discriminate]. injection E as <- <-. exists s, ev. auto.
  - assert (Hc : on_redis a f = Some (f', e) /\ forall i q, a <> MCall i q) by (destruct a; try discriminate; split; try exact E; discriminate).
    destruct Hc as [Hc Hn]. destruct (Hon _ Hc) as (m & m' & ev & H1 & H2 & H3 & H4). exists m, m', ev. auto.
  - destruct (returned (f_repl f)); [|discriminate]. split; [reflexivity|]. destruct (run_call t (CGet k) (r_w (f_repl f))) as [w r| |]; [|discriminate|].
    + destruct r as [r| | | | | |]; try discriminate. injection E as <- <-. split; [reflexivity|]. left. eauto.
    + unfold f_crash in E. cbn [crash] in E. injection E as <- <-. split; [reflexivity|]. right. auto.
  - destruct (returned (f_repl f)); [|discriminate]. split; [reflexivity|]. destruct (f_redis f) as [m|] eqn:ER.
    + left. apply Hon in E. destruct E as (m0 & m' & ev & E0 & H). injection E0 as <-. exists m, m', ev. split; [reflexivity|exact H].
    + right. unfold f_crash in E. cbn [crash] in E. injection E as <- <-. auto.
  - destruct (returned (f_repl f)); [|discriminate]. injection E as <- <-. auto.
Qed.
Lemma fm_no_got e k r : FGot k r ∉ map FM e.
Proof. intros H. apply elem_of_list_fmap in H as (x & Hx & _). discriminate. Qed.
Lemma fv_no_got e k r : FGot k r ∉ map FV e.
Proof. intros H. apply elem_of_list_fmap in H as (x & Hx & _). discriminate. Qed.

Section exec.
  Variables (sel : Z) (P : list CacheModel.call -> world -> Prop) (R : gostr -> list CacheModel.call -> gret gostr -> Prop) (ms : list rmsg) (net : rd).
  Hypothesis P_set : forall l w t k v w' r, P l w -> run_call t (CSet k v) w = Done w' r -> P (l ++ [CSet k v]) w'.
  Hypothesis P_get : forall l w t k w' r, P l w -> run_call t (CGet k) w = Done w' (RStr r) -> P l w' /\ R k l r.
  Definition gets_ok (pre evs : list fevent) : Prop :=
    forall l1 k r l2, evs = l1 ++ FGot k r :: l2 -> R k (set_calls sel (handled (pre ++ l1))) r.
  Lemma gets_none pre evs : (forall k r, FGot k r ∉ evs) -> gets_ok pre evs.
  Proof. intros H l1 k r l2 ->. elim (H k r). apply elem_of_app. right. left. Qed.
  Lemma gets_join pre a b : gets_ok pre a -> gets_ok (pre ++ a) b -> gets_ok pre (a ++ b).
  Proof.
    intros Ha Hb l1 k r l2 E. destruct (app_eq_inv _ _ _ _ E) as [(u & E1 & E2)|(u & E1 & E2)].
    - destruct u as [|x u]; [|injection E2 as <- E2; apply (Ha l1 k r u); rewrite E1; reflexivity].
      rewrite app_nil_r in E1. cbn in E2. subst l1. replace (pre ++ a) with ((pre ++ a) ++ []) by apply app_nil_r. eapply Hb. symmetry. exact E2.
    - rewrite E1. rewrite app_assoc. eapply Hb. exact E2.
  Qed.
  Lemma fstep_inv a f f' e pre : fstep sel a f = Some (f', e) -> loop_inv sel P ms net (f_repl f) (handled pre) ->
    loop_inv sel P ms net (f_repl f') (handled (pre ++ e)) /\ gets_ok pre e.
  Proof.
    intros E HI. apply fstep_cases in E as [_ E]. rewrite handled_app. destruct a as [a|a|t k|i k v|].
    - destruct E as (s & ev & E & -> & -> & _). rewrite handled_fv. split; [eapply step_inv; eauto|]. apply gets_none. intros. apply fv_no_got.
    - destruct E as (m & m' & ev & _ & _ & -> & -> & _). rewrite handled_fm, app_nil_r. split; [exact HI|]. apply gets_none. intros. apply fm_no_got.
    - destruct E as (_ & _ & [(w & r & E & -> & ->)|(_ & E & ->)]).
      + destruct (P_get _ _ _ _ _ _ (proj1 (proj2 HI)) E) as [HP HR]. change (handled [FGot k r]) with (@nil rmsg). rewrite app_nil_r. split; [apply loop_inv_world; assumption|].
        intros l1 k' r' l2 El. destruct l1 as [|x l1]; [|destruct l1; discriminate]. injection El as <- <- _. rewrite app_nil_r. exact HR.
      + change (handled [FCrash]) with (@nil rmsg). rewrite app_nil_r. split; [eapply loop_inv_dead; eauto|]. apply gets_none. intros k' r' H. apply elem_of_list_singleton in H. discriminate.
    - destruct E as (_ & [(m & m' & ev & _ & _ & -> & ->)|(_ & _ & E & ->)]).
      + rewrite handled_fm, app_nil_r. split; [exact HI|]. apply gets_none. intros. apply fm_no_got.
      + change (handled [FCrash]) with (@nil rmsg). rewrite app_nil_r. split; [eapply loop_inv_dead; eauto|]. apply gets_none. intros k' r' H. apply elem_of_list_singleton in H. discriminate.
    - destruct E as (_ & -> & ->). rewrite app_nil_r. split; [exact HI|]. apply gets_none. intros k' r' H. inversion H.
  Qed.
  Lemma fexec_inv acts : forall f f' e pre, fexec sel acts f = Some (f', e) -> loop_inv sel P ms net (f_repl f) (handled pre) ->
    loop_inv sel P ms net (f_repl f') (handled (pre ++ e)) /\ gets_ok pre e.
  Proof.
    induction acts as [|a acts IH]; intros f f' e pre E HI; cbn [fexec] in E.
    - injection E as <- <-. rewrite app_nil_r. split; [exact HI|]. apply gets_none. intros k' r' H. inversion H.
    - destruct (fstep sel a f) as [[f1 e1]|] eqn:E1; [|discriminate]. destruct (fexec sel acts f1) as [[f2 e2]|] eqn:E2; [|discriminate]. injection E as <- <-.
      destruct (fstep_inv _ _ _ _ _ E1 HI) as [HI1 G1]. destruct (IH _ _ _ _ E2 HI1) as [HI2 G2]. rewrite <- app_assoc in HI2. split; [exact HI2|]. apply gets_join; assumption.
  Qed.
End exec.
(** the snapshot, and what follows it on the connection *)
Definition synced (cs : list gostr) (file : gostr) (net : rd) : Prop := exists out, sync_with_redis (new_rd cs) = (out, Some file, SOk net).
Lemma f_new_inv sel (P : list CacheModel.call -> world -> Prop) range w cs f : f_new range w cs = Some f -> P [] w ->
  f_redis f = None /\ r_dead (f_repl f) = false /\
  exists ms net, loop_inv sel P ms net (f_repl f) [] /\ (r_new (f_repl f) = NLoad \/ r_new (f_repl f) = NRet false) /\
    forall file net', synced cs file net' -> net' = net /\ ms = fst (fst (load range 0 [file])).
Proof.
  unfold f_new, synced. intros E HP. destruct (sync_with_redis (new_rd cs)) as [[out o] [net| |]] eqn:ES.
  - destruct o as [file|]; [|discriminate]. injection E as <-. cbn [f_redis f_repl].
    assert (Hs : r_dead (started range w file net) = false /\ r_new (started range w file net) = NLoad) by (unfold started; destruct (load range 0 [file]) as [[? ?] ?]; auto).
    destruct Hs as [Hd Hn]. split; [reflexivity|]. split; [exact Hd|]. exists (fst (fst (load range 0 [file]))), net. split; [apply started_inv, HP|]. split; [left; exact Hn|].
    intros file' net' [o' H]. injection H as -> -> ->. auto.
  - assert (f = Fa (RS [] OErr (NRet false) WOff (new_rd []) AOff [] false false HLoop false w) None) as -> by (destruct o; congruence).
    split; [reflexivity|]. split; [reflexivity|]. exists [], (new_rd []). split; [|split; [right; reflexivity|intros file net' [o' H]; discriminate]].
    split; [|split; [exact HP|split; [left; reflexivity|reflexivity]]]. exists 0%nat, []. split; [reflexivity|]. split; [reflexivity|congruence].
  - destruct o; discriminate.
Qed.

(** ** C128: a value written is read back
    Full statement: after Set(k,v) returned without error, Get(k) returns v.
    Missing: Set goes to the server and Get to the mirror, which learns of it later; and with the cache
    New makes, Get ends the process. *)
(** Get returns the text of the value the mirror was last told for the key, by the snapshot or the stream. *)
Theorem C128_exact_partial range sel t0 cs f0 acts f evs : f_new range (new_world t0) cs = Some f0 -> fexec sel acts f0 = Some (f, evs) ->
  (forall l1 k r l2, evs = l1 ++ FGot k r :: l2 ->
     r = match latest k (set_calls sel (handled l1)) with Some v => (text v, None) | None => ([], Some ErrKeyNil) end) /\
  forall file net, synced cs file net -> exists n live, recv_n n net = ROk live (r_net (f_repl f)) /\
    fst (fst (load range 0 [file])) ++ map (RMsg 0) (filter (fun m => skipped m = false) live) = handled evs ++ under_way (f_repl f).
Proof.
  intros EN E. destruct (f_new_inv sel mirror range _ cs f0 EN (mirror_new t0)) as (_ & _ & ms & net & HI & _ & Hs).
  destruct (fexec_inv sel mirror (fun k l r => r = reply_for (latest k l)) ms net mirror_set) with (acts := acts) (f := f0) (f' := f) (e := evs) (pre := @nil fevent) as [H1 H2]; [|exact E|exact HI|].
  - intros l w t k w' r Hm ER. destruct (mirror_get l w t k Hm) as (w2 & E2 & Hm2). rewrite E2 in ER. injection ER as <- <-. auto.
  - split; [intros l1 k r l2 El; exact (H2 _ _ _ _ El)|]. intros file net' Hsy. destruct (Hs _ _ Hsy) as [-> ->]. destruct H1 as ((n & live & Hn & El & _) & _). exists n, live. auto.
Qed.
(** with New's own cache every Get ends the process *)
Theorem C128_new_cache_refuted range sel t0 cs f0 acts f evs t k : f_new range (zero_world t0) cs = Some f0 -> fexec sel acts f0 = Some (f, evs) ->
  (forall k r, FGot k r ∉ evs) /\ (f_dead f = false -> returned (f_repl f) = true -> exists f', fstep sel (FGet t k) f = Some (f', [FCrash]) /\ f_dead f' = true).
Proof.
  intros EN E. set (P := fun (l : list CacheModel.call) w => w = zero_world t0).
  assert (Hget : forall t k, run_call t (CGet k) (zero_world t0) = EPanic) by reflexivity.
  destruct (f_new_inv sel P range _ cs f0 EN eq_refl) as (_ & _ & ms & net & HI & _ & _).
  destruct (fexec_inv sel P (fun k l r => False) ms net) with (acts := acts) (f := f0) (f' := f) (e := evs) (pre := @nil fevent) as [H1 H2]; [|  |exact E|exact HI|].
  - intros l w t1 k1 v w' r -> ER. discriminate.
  - intros l w t1 k1 w' r -> ER. rewrite Hget in ER. discriminate.
  - destruct H1 as (_ & H1 & _). split.
    + intros k1 r Hin. apply elem_of_list_split in Hin as (l1 & l2 & ->). exact (H2 _ _ _ _ eq_refl).
    + intros Hd Hr. unfold fstep. rewrite Hd, Hr, H1, Hget. unfold f_crash. cbn [crash]. eexists. split; [reflexivity|]. reflexivity.
Qed.
(** Otherwise too, Get can miss the value after Set has returned without error, also when the server has sent it already. *)
Definition sync_ok (file rest : gostr) : list gostr := [bs "+PONG" ++ crlf; bs "$" ++ itoa (zlen file) ++ crlf ++ file ++ rest].
Definition set_k_v : gostr := serialize (convert_to_message [bs "SET"; bs "k"; bs "v"]).
Definition do_set (i : nat) (k v : gostr) (cs : list gostr) : list fact :=
  FSet i k v :: map FRemote ([MRun i] ++ connect i cs ++ done i).
Theorem C128_refuted : exists cs acts, match f_new range_of (new_world 0) cs with
  | Some f0 => match fexec 0 acts f0 with
    | Some (f, evs) => exists l, evs = l ++ [FM (MDid 1 (QSet (bs "k") (bs "v")) (Some 0%nat) (VStr []) None); FM (MReturned 1 (VStr []) None); FGot (bs "k") ([], Some ErrKeyNil)]
    | None => False end
  | None => False end.
Proof.
  exists (sync_ok (rdb_file ver9 [] []) set_k_v), ([FRepl ANew] ++ do_set 1 (bs "k") (bs "v") [bs "+OK" ++ crlf] ++ [FGet 0 (bs "k")]).
  vm_compute. eexists [_]. reflexivity.
Qed.
Example C128_nonvacuous : match f_new range_of (new_world 0) (sync_ok (rdb_file ver9 [] []) set_k_v) with
  | Some f0 => match fexec 0 ([FRepl ANew] ++ do_set 1 (bs "k") (bs "v") [bs "+OK" ++ crlf] ++ [FGet 0 (bs "k"); FRepl AWait; FRepl AWait; FRepl (AMsg 0); FGet 0 (bs "k")]) f0 with
    | Some (f, evs) => list.last evs = Some (FGot (bs "k") (bs "v", None)) | None => False end
  | None => False end /\
  exists file net, synced (sync_ok (rdb_file ver9 [] []) set_k_v) file net.
Proof. split; [vm_compute; reflexivity|]. eexists _, _, _. vm_compute. reflexivity. Qed.

(** ** C129: Get is local, Set is remote *)
Theorem C129_get_is_local sel t k f f' e : fstep sel (FGet t k) f = Some (f', e) -> f_redis f' = f_redis f /\ r_net (f_repl f') = r_net (f_repl f) /\ handled e = [].
Proof.
  intros E. apply fstep_cases in E as (_ & _ & Hr & [(w & r & _ & -> & ->)|(_ & E & ->)]); (split; [exact Hr|]); [split; reflexivity|]. injection E as <-. split; reflexivity.
Qed.
Theorem C129_set_is_remote sel a f f' e : fstep sel a f = Some (f', e) -> match a with FSet _ _ _ | FRemote _ => True | _ => False end ->
  r_w (f_repl f') = r_w (f_repl f) /\ forall k r, FGot k r ∉ e.
Proof.
  intros E Ha. apply fstep_cases in E as (_ & E). destruct a as [a|a|t k|i k v|]; try contradiction.
  - destruct E as (m & m' & ev & _ & _ & -> & -> & _). split; [reflexivity|]. apply fm_no_got.
  - destruct E as (_ & [(m & m' & ev & _ & _ & -> & ->)|(_ & _ & E & ->)]); [split; [reflexivity|apply fm_no_got]|]. injection E as <-. split; [reflexivity|]. intros k' r' H. apply elem_of_list_singleton in H. discriminate.
Qed.

(** ** C130: after a failed New, Set fails
    Full statement: if New returned an error, Set on the returned client returns an error.
    Missing: Set uses the nil pointer client.redis and ends the process. *)
Lemma fexec_redis sel acts : forall f f' e, fexec sel acts f = Some (f', e) -> (f_redis f = None <-> r_new (f_repl f) <> NRet true) -> (f_redis f' = None <-> r_new (f_repl f') <> NRet true).
Proof.
  induction acts as [|a acts IH]; intros f f' e E HI; cbn [fexec] in E; [injection E as <- <-; exact HI|].
  destruct (fstep sel a f) as [[f1 e1]|] eqn:E1; [|discriminate]. destruct (fexec sel acts f1) as [[f2 e2]|] eqn:E2; [|discriminate]. injection E as <- <-. apply (IH _ _ _ E2). clear IH E2.
  apply fstep_cases in E1 as [_ E]. destruct a as [a|a|t k|i k v|].
  - destruct E as (s & ev & E & <- & _ & ->).
    assert (Hn : (r_new (f_repl f1) = r_new (f_repl f) /\ (forall b, ev <> [VNew b])) \/ exists b, r_new (f_repl f) = NLoad /\ r_new (f_repl f1) = NRet b /\ ev = [VNew b]).
    { unfold rstep, handle, crash in E. destruct (r_dead _); [discriminate|].
      repeat (match type of E with context [match ?x with _ => _ end] => destruct x eqn:? end; try discriminate); injection E as E Ev; rewrite <- E, <- Ev; cbn [r_new set_new set_handler set_err set_wait set_ack];
        first [left; split; [reflexivity || congruence|intros b; discriminate]|right; eexists; split; [congruence|]; split; reflexivity]. }
    destruct Hn as [[-> Hb]|(b & Hl & -> & ->)].
    + destruct ev as [|[m| | | |[]|] [|]]; try exact HI. elim (Hb true). reflexivity.
    + destruct b; [split; [discriminate|intros H; elim H; reflexivity]|]. rewrite (proj2 HI) by congruence. split; [discriminate|reflexivity].
  - destruct E as (m & m' & ev & Hm & _ & -> & _). cbn [f_redis f_repl]. rewrite <- HI, Hm. split; discriminate.
  - destruct E as (_ & -> & [(w & r & _ & -> & _)|(_ & E & _)]); [exact HI|]. injection E as <-. exact HI.
  - destruct E as (_ & [(m & m' & ev & Hm & _ & -> & _)|(Hm & -> & E & _)]); [cbn [f_redis f_repl]; rewrite <- HI, Hm; split; discriminate|]. injection E as <-. cbn [r_new]. rewrite <- HI. rewrite Hm. split; reflexivity.
  - destruct E as (_ & -> & _). exact HI.
Qed.
Lemma f_new_redis range w cs f0 : f_new range w cs = Some f0 -> (f_redis f0 = None <-> r_new (f_repl f0) <> NRet true).
Proof.
  intros EN. destruct (f_new_inv 0 (fun _ _ => True) range w cs f0 EN I) as (Hn & _ & ms & net & _ & Hr & _). split; [|auto]. intros _ H. rewrite H in Hr. destruct Hr; discriminate.
Qed.
Theorem C130_refuted range sel w cs f0 acts f evs i k v : f_new range w cs = Some f0 -> fexec sel acts f0 = Some (f, evs) -> f_dead f = false ->
  r_new (f_repl f) = NRet false -> exists f', fstep sel (FSet i k v) f = Some (f', [FCrash]) /\ f_dead f' = true.
Proof.
  intros EN E Hd Hn. pose proof (proj2 (fexec_redis _ _ _ _ _ E (f_new_redis _ _ _ _ EN)) ltac:(rewrite Hn; discriminate)) as Hr.
  unfold fstep, returned, f_crash. rewrite Hd, Hn, Hr. cbn [crash]. eexists. split; reflexivity.
Qed.
Theorem C130_partial range sel w cs f0 acts f evs i k v f' e : f_new range w cs = Some f0 -> fexec sel acts f0 = Some (f, evs) ->
  r_new (f_repl f) = NRet true -> fstep sel (FSet i k v) f = Some (f', e) -> f_repl f' = f_repl f /\ FCrash ∉ e.
Proof.
  intros EN E Hn ES. apply fstep_cases in ES as (_ & _ & [(m & m' & ev & _ & _ & -> & ->)|(Hm & _)]).
  - split; [reflexivity|]. intros H. apply elem_of_list_fmap in H as (x & Hx & _). discriminate.
  - apply (fexec_redis _ _ _ _ _ E (f_new_redis _ _ _ _ EN)) in Hm. congruence.
Qed.
Example C130_nonvacuous : match f_new range_of (new_world 0) [bs "-ERR" ++ crlf] with
  | Some f => r_new (f_repl f) = NRet false /\ match fexec 0 [FGet 0 (bs "k"); FSet 1 (bs "k") (bs "v")] f with Some (_, evs) => evs = [FGot (bs "k") ([], Some ErrKeyNil); FCrash] | None => False end | None => False end.
Proof. vm_compute. auto. Qed.

(** ** C131: Stop ends the mirroring
    Full statement: after Stop, no message changes the cache.
    Missing: Stop does nothing. *)
Theorem C131_refuted sel l1 l2 f f' evs : fexec sel (l1 ++ FStop :: l2) f = Some (f', evs) -> fexec sel (l1 ++ l2) f = Some (f', evs).
Proof.
  revert f evs. induction l1 as [|a l1 IH]; intros f evs E; cbn [app fexec] in E |- *.
  - destruct (fstep sel FStop f) as [[f1 e1]|] eqn:E1; [|discriminate]. apply fstep_cases in E1 as (_ & _ & -> & ->). destruct (fexec sel l2 f) as [[f2 e2]|]; [exact E|discriminate].
  - destruct (fstep sel a f) as [[f1 e1]|]; [|discriminate]. destruct (fexec sel (l1 ++ FStop :: l2) f1) as [[f2 e2]|] eqn:E2; [|discriminate]. injection E as <- <-. rewrite (IH _ _ E2). reflexivity.
Qed.
Example C131_witness_refuted : match f_new range_of (new_world 0) (sync_ok (rdb_file ver9 [] []) set_k_v) with
  | Some f0 => match fexec 0 [FRepl ANew; FStop; FGet 0 (bs "k"); FRepl AWait; FRepl AWait; FRepl (AMsg 0); FGet 0 (bs "k")] f0 with
    | Some (f, evs) => exists e, evs = FV (VNew true) :: FGot (bs "k") ([], Some ErrKeyNil) :: e ++ [FGot (bs "k") (bs "v", None)] | None => False end
  | None => False end.
Proof. vm_compute. eexists [_]. reflexivity. Qed.

(** ** C132: Set through the pool of the client *)
Definition redis_acts (l : list fact) : list mact := omap (fun a => match a with FRemote a => Some a | FSet i k v => Some (MCall i (QSet k v)) | _ => None end) l.
Definition redis_events (l : list fevent) : list mevent := omap (fun e => match e with FM e => Some e | _ => None end) l.
Lemma redis_events_fm e : redis_events (map FM e) = e.
Proof. induction e as [|x e IH]; [reflexivity|]. cbn. f_equal. exact IH. Qed.
Lemma redis_events_fv e : redis_events (map FV e) = [].
Proof. induction e as [|x e IH]; [reflexivity|exact IH]. Qed.
Lemma mexec_snoc l : forall r r1 e1 a r2 e2, mexec l r = Some (r1, e1) -> mstep a r1 = Some (r2, e2) -> mexec (l ++ [a]) r = Some (r2, e1 ++ e2).
Proof.
  induction l as [|b l IH]; intros r r1 e1 a r2 e2 H1 H2; cbn [mexec app] in *.
  - injection H1 as <- <-. rewrite H2, app_nil_r. reflexivity.
  - destruct (mstep b r) as [[r' e']|]; [|discriminate]. destruct (mexec l r') as [[r'' e'']|] eqn:E; [|discriminate]. injection H1 as <- <-. rewrite (IH _ _ _ _ _ _ E H2), app_assoc. reflexivity.
Qed.
Lemma f_dead_crash f f' : crash (f_repl f) = Some (f_repl f', [VCrash]) -> f_dead f' = true.
Proof. intros E. unfold f_dead. injection E as <-. reflexivity. Qed.
Definition redis_inv (la : list fact) (le : list fevent) (f : facade) : Prop :=
  match f_redis f with
  | None => redis_events le = [] /\ (f_dead f = false -> redis_acts la = []) /\ r_new (f_repl f) <> NRet true
  | Some m => r_new (f_repl f) = NRet true /\ mexec (redis_acts la) redis_client = Some (m, redis_events le)
  end.
Lemma redis_step sel a f f' e la le : fstep sel a f = Some (f', e) -> redis_inv la le f -> redis_inv (la ++ [a]) (le ++ e) f'.
Proof.
  intros E HI. pose proof (fexec_redis sel [a] f f' e) as HN. cbn [fexec] in HN. rewrite E, app_nil_r in HN. specialize (HN eq_refl).
  assert (Hf : f_redis f = None <-> r_new (f_repl f) <> NRet true) by (unfold redis_inv in HI; destruct (f_redis f); [destruct HI as [-> _]; split; [discriminate|congruence]|split; [intros _; apply HI|auto]]).
  specialize (HN Hf). apply fstep_cases in E as (Hd & E). unfold redis_inv in *. unfold redis_acts, redis_events in *. rewrite !omap_app. destruct a as [a|a|t k|i k v|]; cbn [omap list_omap].
  - destruct E as (s & ev & E & <- & -> & Hr). fold (redis_events (map FV ev)). rewrite redis_events_fv, !app_nil_r. destruct (f_redis f') as [m|] eqn:EF.
    + assert (Hn : r_new (f_repl f') = NRet true) by (destruct HN as [_ HN]; destruct (r_new (f_repl f')) as [|[]]; try reflexivity; discriminate HN; discriminate).
      split; [exact Hn|]. destruct (f_redis f) as [m0|] eqn:EF0.
      * destruct HI as [HI1 HI2]. assert (m = m0) as ->; [|exact HI2].
        destruct ev as [|[x| | | |[]|] [|]]; try congruence. exfalso. clear -E HI1. unfold rstep, handle, crash in E. destruct (r_dead _); [discriminate|]. rewrite HI1 in E.
        repeat (match type of E with context [match ?x with _ => _ end] => destruct x end; try discriminate).
      * destruct HI as (HI1 & HI2 & HI3). rewrite HI1, (HI2 Hd). destruct ev as [|[x| | | |[]|] [|]]; try discriminate. injection Hr as ->. reflexivity.
    + assert (EF0 : f_redis f = None) by (destruct ev as [|[x| | | |[]|] [|]]; congruence). rewrite EF0 in HI. destruct HI as (HI1 & HI2 & HI3). split; [exact HI1|]. split; [intros _; exact (HI2 Hd)|apply HN; reflexivity].
  - destruct E as (m & m' & ev & Hm & EM & -> & -> & _). cbn [f_redis f_repl]. rewrite Hm in HI. destruct HI as [HI1 HI2]. split; [exact HI1|]. fold (redis_events (map FM ev)). rewrite redis_events_fm. eapply mexec_snoc; eauto.
  - destruct E as (_ & Hr & E). rewrite Hr in *. rewrite app_nil_r. replace (omap _ e) with (@nil mevent) by (destruct E as [(w & r & _ & _ & ->)|(_ & _ & ->)]; reflexivity). rewrite app_nil_r.
    destruct (f_redis f) as [m|]; [|split; [apply HI|]; split; [intros _; apply HI, Hd|apply HN; reflexivity]].
    split; [|apply HI]. destruct E as [(w & r & _ & -> & _)|(_ & E & _)]; [apply HI|]. injection E as <-. apply HI.
  - destruct E as (_ & [(m & m' & ev & Hm & EM & -> & ->)|(Hm & Hm' & E & ->)]).
    + cbn [f_redis f_repl]. rewrite Hm in HI. destruct HI as [HI1 HI2]. split; [exact HI1|]. fold (redis_events (map FM ev)). rewrite redis_events_fm. eapply mexec_snoc; eauto.
    + rewrite Hm', Hm in *. cbn [omap list_omap]. rewrite app_nil_r. split; [apply HI|]. split; [|apply HN; reflexivity]. rewrite (f_dead_crash _ _ E). discriminate.
  - destruct E as (_ & -> & ->). cbn [omap list_omap]. rewrite !app_nil_r. exact HI.
Qed.
Lemma redis_exec sel acts : forall f f' e la le, fexec sel acts f = Some (f', e) -> redis_inv la le f -> redis_inv (la ++ acts) (le ++ e) f'.
Proof.
  induction acts as [|a acts IH]; intros f f' e la le E HI; cbn [fexec] in E; [injection E as <- <-; rewrite !app_nil_r; exact HI|].
  destruct (fstep sel a f) as [[f1 e1]|] eqn:E1; [|discriminate]. destruct (fexec sel acts f1) as [[f2 e2]|] eqn:E2; [|discriminate]. injection E as <- <-.
  pose proof (IH _ _ _ _ _ E2 (redis_step _ _ _ _ _ _ _ E1 HI)) as H. rewrite <- !app_assoc in H. exact H.
Qed.
(** The calls of Set are those of an unrestricted Redis client without password and database, so that C72-C76 and C122-C125 apply to them. *)
Theorem C132_is_a_client range sel w cs f0 acts f evs m : f_new range w cs = Some f0 -> fexec sel acts f0 = Some (f, evs) -> f_redis f = Some m ->
  mexec (redis_acts acts) (new_client (ROpt 0 0 [])) = Some (m, redis_events evs).
Proof.
  intros EN E Hm. assert (H0 : redis_inv [] [] f0).
  { unfold redis_inv. destruct (f_new_inv 0 (fun _ _ => True) range w cs f0 EN I) as (-> & _). split; [reflexivity|]. split; [reflexivity|]. apply (f_new_redis _ _ _ _ EN). destruct (f_new_inv 0 (fun _ _ => True) range w cs f0 EN I) as (-> & _). reflexivity. }
  pose proof (redis_exec _ _ _ _ _ _ _ E H0) as H. unfold redis_inv in H. rewrite Hm in H. apply H.
Qed.
Lemma only_sets acts i q : q ∈ calls i (redis_acts acts) -> (forall a, FRemote a ∈ acts -> forall j q, a <> MCall j q) -> exists k v, q = QSet k v.
Proof.
  intros Hq Hn. apply elem_of_list_omap in Hq as (a & Ha & Hc). apply elem_of_list_omap in Ha as (x & Hx & E). destruct x as [x|x|x|j k v|]; try discriminate; injection E as <-.
  - destruct x as [j q0| | | | |]; try discriminate. elim (Hn _ Hx j q0). reflexivity.
  - destruct (bool_decide (i = j)); [|discriminate]. injection Hc as <-. eauto.
Qed.
Lemma no_raw_calls sel acts : forall f f' e, fexec sel acts f = Some (f', e) -> forall a, FRemote a ∈ acts -> forall j q, a <> MCall j q.
Proof.
  induction acts as [|b acts IH]; intros f f' e E a Ha j q; [inversion Ha|]. cbn [fexec] in E. destruct (fstep sel b f) as [[f1 e1]|] eqn:E1; [|discriminate]. destruct (fexec sel acts f1) as [[f2 e2]|] eqn:E2; [|discriminate].
  apply elem_of_cons in Ha as [<-|Ha]; [|eapply IH; eauto]. apply fstep_cases in E1 as (_ & m & m' & ev & _ & _ & _ & _ & H). apply H.
Qed.
(** on every connection there are only SET commands, the first of them first *)
Theorem C132_only_sets range sel w cs f0 acts f evs m c cn : f_new range w cs = Some f0 -> fexec sel acts f0 = Some (f, evs) -> f_redis f = Some m -> m_conn m !! c = Some cn ->
  exists kvs cmds pend, map fst (did c (redis_events evs)) = map (fun x => QSet (fst x) (snd x)) kvs /\
    Forall2 (fun x b => wire (MArr [MBulk (bs "set"); MBulk (fst x); MBulk (snd x)]) b) kvs cmds /\ cn_out cn = concat cmds ++ pend /\
    (pend = [] \/ exists q, wire (MArr (map MBulk (request q))) pend).
Proof.
  intros EN E Hm Hc. pose proof (C132_is_a_client _ _ _ _ _ _ _ _ _ EN E Hm) as EM. destruct (C123_greets_first _ _ _ _ EM _ _ Hc) as (au & se & cmds & pend & Ho & Hau & Hse & Hcm & Hp & _).
  cbn [o_password o_database] in Hau, Hse. rewrite bool_decide_eq_true_2 in Hau by reflexivity. cbn in Hse. subst au se.
  assert (Hs : Forall (fun x => exists k v, fst x = QSet k v) (did c (redis_events evs))).
  { apply List.Forall_forall. intros [q [v er]] Hx. apply elem_of_list_In in Hx. apply elem_of_list_omap in Hx as (x & Hx & Ex). destruct x as [i q' [d|] v' er'|]; try discriminate. destruct (bool_decide (c = d)); [|discriminate]. injection Ex as -> -> ->. cbn [fst].
    destruct (C122_returns_its_result _ _ _ _ EM i) as (qs & _ & Hq & _). eapply only_sets; [|eapply no_raw_calls; exact E]. rewrite Hq. apply elem_of_app. left. apply elem_of_list_fmap. exists (q, (v, er)). split; [reflexivity|].
    apply elem_of_list_omap. exists (MDid i q (Some d) v er). split; [exact Hx|]. rewrite bool_decide_eq_true_2 by reflexivity. reflexivity. }
  assert (Hk : exists kvs, map fst (did c (redis_events evs)) = map (fun x => QSet (fst x) (snd x)) kvs /\ Forall2 (fun x b => wire (MArr [MBulk (bs "set"); MBulk (fst x); MBulk (snd x)]) b) kvs cmds).
  { clear -Hs Hcm. revert cmds Hcm. induction Hs as [|x l (k & v & Hq) Hs IH]; intros cmds Hcm; inversion Hcm as [|? ? ? ? Hw Hcm']; subst; [exists []; split; [reflexivity|constructor]|].
    destruct (IH _ Hcm') as (kvs & E1 & E2). exists ((k, v) :: kvs). cbn [map fst snd]. rewrite E1, Hq. split; [reflexivity|]. constructor; [|exact E2]. rewrite Hq in Hw. exact Hw. }
  destruct Hk as (kvs & H1 & H2). exists kvs, cmds, pend. split; [exact H1|]. split; [exact H2|]. split; [exact Ho|]. destruct Hp as [->|(i & q & _ & Hp)]; [left; reflexivity|right; eauto].
Qed.
(** every Set returns the result of its own command; [QSet k v] for each call of the goroutine in order *)
Definition set_by (i : nat) (l : list fact) : list rcall := omap (fun a => match a with FSet j k v => if bool_decide (i = j) then Some (QSet k v) else None | _ => None end) l.
Theorem C132_returns_its_result range sel w cs f0 acts f evs m i : f_new range w cs = Some f0 -> fexec sel acts f0 = Some (f, evs) -> f_redis f = Some m ->
  exists qs vs, set_by i acts = map fst (results i (redis_events evs)) ++ qs /\ map snd (results i (redis_events evs)) = returns i (redis_events evs) ++ vs /\ (length qs + length vs <= 1)%nat.
Proof.
  intros EN E Hm. pose proof (C132_is_a_client _ _ _ _ _ _ _ _ _ EN E Hm) as EM. destruct (C122_returns_its_result _ _ _ _ EM i) as (qs & vs & H1 & H2 & H3). exists qs, vs. split; [|auto]. rewrite <- H1.
  pose proof (no_raw_calls _ _ _ _ _ E) as Hn. clear -Hn. unfold set_by, calls, redis_acts. induction acts as [|a acts IH]; [reflexivity|].
  assert (IH' := IH (fun a Ha => Hn a ltac:(right; exact Ha))). destruct a as [a|a|t k|j k v|]; cbn [omap list_omap]; try exact IH'.
  - destruct a as [j q| | | | |]; try exact IH'. elim (Hn (MCall j q) ltac:(left) j q). reflexivity.
  - destruct (bool_decide (i = j)); [f_equal|]; exact IH'.
Qed.
Example C132_nonvacuous : match f_new range_of (new_world 0) (sync_ok (rdb_file ver9 [] []) []) with
  | Some f0 => match fexec 0 ([FRepl ANew] ++ do_set 1 (bs "k") (bs "v") [bs "+OK" ++ crlf ++ bs "-ERR" ++ crlf] ++ FSet 2 (bs "a") (bs "b") :: map FRemote (MRun 2 :: done 2)) f0 with
    | Some (f, evs) => returns 1 (redis_events evs) = [(VStr [], None)] /\ returns 2 (redis_events evs) = [(VStr [], Some (XText (bs "ERR")))] /\ is_Some (f_redis f) | None => False end
  | None => False end.
Proof. vm_compute. eauto. Qed.

(** ** C133: the addresses used *)
Theorem C133_addresses o : exists addr file, addresses o = (addr, file, addr, x_database o) /\
  (x_addr o <> [] -> addr = x_addr o) /\ (x_addr o = [] -> addr = bs "127.0.0.1:6379") /\ (x_file o <> [] -> file = x_file o) /\ (x_file o = [] -> file = bs "temp.rdb").
Proof.
  unfold addresses, prepare_option. cbn [x_addr x_file]. eexists _, _. split; [reflexivity|]. do 2 (destruct (bool_decide_reflect (x_addr o = [])); destruct (bool_decide_reflect (x_file o = []))); repeat split; intros; congruence.
Qed.
Example C133_nonvacuous : addresses (XOpt [] (bs "a.rdb") 3) = (bs "127.0.0.1:6379", bs "a.rdb", bs "127.0.0.1:6379", 3).
Proof. reflexivity. Qed.
