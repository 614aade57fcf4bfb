(** * Props_Conc: concurrent callers *)
From Verif Require Import Base GoFloat CacheModel CacheSpec CacheConc.
From Verif Require Import CacheAbs CacheRefine CacheRefineH CacheMain CacheLib Props_String Props_Counter Props_Multi Props_Db Props_Hash ConcLin ConcSafe ConcRead ConcDl ConcHash ConcKey.

Lemma calls_in_weaken (P Q : call -> Prop) evs : (forall c, P c -> Q c) -> calls_in P evs -> calls_in Q evs.
Proof. intros H Hc i c Hin. eauto. Qed.

(** ** C47 *)
Theorem C47_locked_calls_linearizable w0 s c evs :
  ready w0 -> calls_in takes_lock evs -> cexec s (start w0) = Some (c, evs) ->
  exists A m last ws, lin_ok w0 A m (w_now (c_w c)) last ws /\ observed A = evs /\
    run_hist (lin_calls A) w0 = Done ws (lin_replies A) /\
    (c_th c = ∅ -> m = ∅ /\ same_cache (c_w c) ws).
Proof.
  intros [R1 R2 _ _ _ _] Hc E. destruct (lin_exec w0 s c evs R1 R2 (calls_in_weaken _ _ _ takes_lock_wlock Hc) E) as (A & m & last & ws & HA & Ho & Hs).
  exists A, m, last, ws. split; [exact HA|]. split; [exact Ho|]. split; [eapply lin_ok_hist; eauto|].
  intros He. destruct Hs as (_ & _ & [(_ & Hs & Hm)|(h & X & b0 & b & g & cl & t0 & wl & E1 & _)]).
  - split; [|exact Hs]. apply map_eq. intros i. specialize (Hm i). rewrite He, lookup_empty in Hm. rewrite lookup_empty.
    destruct (m !! i) as [[]|]; [destruct Hm|destruct Hm|reflexivity].
  - rewrite He, lookup_empty in E1. discriminate.
Qed.
Definition runs (i n : nat) : list act := repeat (ARun i) n.
Definition events_of (s : list act) (w : world) : option (list event) :=
  match cexec s (start w) with Some (_, e) => Some e | None => None end.
(** Two overlapping calls: goroutine 1 calls first, goroutine 2 takes the lock first. *)
Example C47_nonvacuous :
  events_of ([AInv 1 (CAppend (bs "k") (bs "a")); AInv 2 (CAppend (bs "k") (bs "b"))] ++ runs 2 2 ++ [ATick 7] ++ runs 2 2 ++ [ARet 2] ++ runs 1 5 ++ [ARet 1]) (new_world 0) =
  Some [EInv 1 (CAppend (bs "k") (bs "a")); EInv 2 (CAppend (bs "k") (bs "b")); ETick 7; ERet 2 (RInt (1, None)); ERet 1 (RInt (2, None))].
Proof. vm_compute. reflexivity. Qed.

(** ** C48 *)
(** the calls issued in a history *)
Definition issued (evs : list event) : list call := omap (fun e => match e with EInv _ c => Some c | _ => None end) evs.
Definition pending (m : gmap nat tst) : list call :=
  omap (fun x => match snd x with Called c _ => Some c | Decided _ => None end) (map_to_list m).
Lemma pending_perm m m' : map_to_list m ≡ₚ map_to_list m' -> pending m ≡ₚ pending m'.
Proof. unfold pending. intros H. rewrite H. reflexivity. Qed.
Lemma pending_insert m i s : m !! i = None -> pending (<[i := s]> m) ≡ₚ match s with Called c _ => [c] | Decided _ => [] end ++ pending m.
Proof.
  intros H. unfold pending. rewrite map_to_list_insert by exact H. destruct s; reflexivity.
Qed.
Lemma pending_delete m i s : m !! i = Some s -> pending m ≡ₚ match s with Called c _ => [c] | Decided _ => [] end ++ pending (delete i m).
Proof. intros H. rewrite <- (insert_delete m i s H) at 1. apply pending_insert, lookup_delete. Qed.
Lemma lin_ok_calls w0 A m clk last ws : lin_ok w0 A m clk last ws ->
  issued (observed A) ≡ₚ map snd (lin_calls A) ++ pending m.
Proof.
  unfold issued, observed, lin_calls.
  induction 1 as [|A m clk last ws i c H IH Hm|A m clk last ws t H IH|A m clk last ws i c t0 t ws' r H IH Hm H1 H2 H3 Hr|A m clk last ws i r H IH Hm];
    rewrite ?omap_app; cbn [omap list_omap app]; rewrite ?app_nil_r; auto.
  - rewrite IH, pending_insert by exact Hm. cbn [app]. rewrite <- app_assoc. apply Permutation_app_head. apply Permutation_app_comm.
  - rewrite IH. rewrite (pending_delete m i _ Hm), map_app. cbn [map snd app]. rewrite <- app_assoc. cbn [app].
    rewrite <- (insert_delete_insert m), pending_insert by apply lookup_delete. reflexivity.
  - rewrite IH. rewrite (pending_delete m i _ Hm). reflexivity.
Qed.
Lemma sum_perm l1 l2 : l1 ≡ₚ l2 -> sum l1 = sum l2.
Proof. induction 1; cbn; lia. Qed.
Lemma omap_perm {A B} (f : A -> option B) l1 l2 : l1 ≡ₚ l2 -> omap f l1 ≡ₚ omap f l2.
Proof. intros H. rewrite H. reflexivity. Qed.

Theorem C48_no_lost_increment w0 k n s c evs :
  ready w0 -> counter w0 k n -> - 2 ^ 63 <= n < 2 ^ 63 ->
  calls_in (fun cl => takes_lock cl /\ (is_Some (delta k cl) \/ ~ names cl k)) evs ->
  cexec s (start w0) = Some (c, evs) -> c_th c = ∅ ->
  ready (c_w c) /\ counter (c_w c) k (wrap64 (n + sum (omap (delta k) (issued evs)))).
Proof.
  intros Hr Hc Hn Hin E He.
  destruct (C47_locked_calls_linearizable w0 s c evs Hr (calls_in_weaken _ _ _ (fun c H => proj1 H) Hin) E) as (A & m & last & ws & HA & Ho & Hh & Hs).
  destruct (Hs He) as [-> Hsame]. pose proof (lin_ok_calls _ _ _ _ _ _ HA) as Hp. rewrite Ho in Hp. cbn in Hp. rewrite app_nil_r in Hp.
  assert (Hall : all_calls (fun _ c => ~ names c k \/ is_Some (delta k c)) (lin_calls A)).
  { apply Forall_forall. intros [t cl] Hx. cbn [snd].
    assert (Hx' : cl ∈ issued evs). { rewrite Hp. apply elem_of_list_fmap. exists (t, cl). split; [reflexivity|apply elem_of_list_In, Hx]. }
    unfold issued in Hx'. apply elem_of_list_omap in Hx' as (e & He' & Hcl). destruct e; try discriminate. injection Hcl as ->.
    destruct (Hin _ _ He') as [_ H]. tauto. }
  destruct (C17_counter_history_interleaved k _ w0 n ws _ Hr Hc Hn Hall Hh) as [H1 H2].
  assert (Hst : stored (c_w c) k = stored ws k).
  { unfold stored. replace (w_data (c_w c)) with (w_data ws); [reflexivity|]. unfold same_cache in Hsame. destruct (c_w c), ws. unfold set_now in Hsame. cbn in *. congruence. }
  assert (Hrw : ready ws) by (eapply ready_hist; eauto).
  split.
  - destruct Hrw as [R1 R2 R3 R4 R5 R6]. unfold same_cache, set_now in Hsame. destruct (c_w c), ws. cbn in *. injection Hsame. intros. subst. constructor; cbn; auto.
  - unfold counter in *. rewrite Hst. replace (omap (delta k) (issued evs)) with (omap (delta k) (issued evs)) by reflexivity.
    assert (Hsum : sum (omap (delta k) (issued evs)) = sum (omap (fun tc => delta k (snd tc)) (lin_calls A))).
    { rewrite (sum_perm _ _ (omap_perm (delta k) _ _ Hp)). f_equal. generalize (lin_calls A). clear. induction l as [|[t cl] l IH]; [reflexivity|]. cbn. rewrite IH. reflexivity. }
    rewrite Hsum. exact H1.
Qed.
Example C48_nonvacuous :
  counter demo (bs "n") 41 /\
  events_of ([AInv 1 (CIncrBy (bs "n") 5); AInv 2 (CDecr (bs "n")); ARun 1; AInv 3 (CSet (bs "z") (bs "x"))] ++ runs 1 3 ++ runs 3 3 ++ runs 2 4 ++ [ARet 1; ARet 2; ARet 3; AInv 1 (CGet (bs "n"))] ++ runs 1 4 ++ [ARet 1]) demo =
  Some [EInv 1 (CIncrBy (bs "n") 5); EInv 2 (CDecr (bs "n")); EInv 3 (CSet (bs "z") (bs "x")); ERet 1 (RInt (46, None)); ERet 2 (RInt (45, None)); ERet 3 (RStr (bs "OK", None));
        EInv 1 (CGet (bs "n")); ERet 1 (RStr (bs "45", None))].
Proof. split; [left|]; vm_compute; reflexivity. Qed.

(** ** C49 *)
(** Two overlapping Gets of an expired key: one removes the entry and its deadline after the other
    has loaded the value; the other then finds no deadline and returns the value. *)
Theorem C49_expired_value_seen_refuted :
  exists k v s t, second < t /\
    events_of s (new_world 0) =
    Some [EInv 0 (CSetEX k v 1); ERet 0 (RStr (bs "OK", None)); ETick t;
          EInv 1 (CGet k); EInv 2 (CGet k); ERet 2 (RStr ([], Some ErrKeyNil)); ERet 1 (RStr (v, None))].
Proof.
  exists (bs "k"), (bs "v"), ([AInv 0 (CSetEX (bs "k") (bs "v") 1)] ++ runs 0 5 ++ [ARet 0; ATick 5000000000; AInv 1 (CGet (bs "k")); AInv 2 (CGet (bs "k"))] ++
    runs 1 2 ++ runs 2 7 ++ [ARet 2] ++ runs 1 2 ++ [ARet 1]), 5000000000. split; [reflexivity|]. vm_compute. reflexivity.
Qed.

(** Full statement: the same with the hypothesis [owner k' = i] dropped, i.e. with several goroutines
    reading one key; that is refuted above. When every key is read by one goroutine only, the calls
    under the lock and the readers are linearizable, deadlines included. *)
Theorem C49_one_reader_per_key_linearizable_partial (owner : gostr -> nat) w0 s c evs :
  ready w0 ->
  (forall i cl, EInv i cl ∈ evs -> takes_lock cl \/
     exists k, owner k = i /\ (cl = CGet k \/ cl = CStrLen k \/ exists a b, cl = CGetRange k a b)) ->
  cexec s (start w0) = Some (c, evs) ->
  exists A m last ws, lin_ok w0 A m (w_now (c_w c)) last ws /\ observed A = evs /\
    run_hist (lin_calls A) w0 = Done ws (lin_replies A) /\
    (c_th c = ∅ -> m = ∅ /\ same_cache (c_w c) ws).
Proof.
  intros Hr Hc E. destruct (olin_exec owner w0 s c evs Hr) as (A & m & last & ws & HA & Ho & Hs); [|exact E|].
  - intros i cl Hi. destruct (Hc i cl Hi) as [Ht|(k & Hk & [->|[->|(a & b & ->)]])]; [left; apply takes_lock_wlock, Ht| | |]; right; exists k; auto.
  - exists A, m, last, ws. split; [exact HA|]. split; [exact Ho|]. split; [eapply lin_ok_hist; eauto|]. apply (osim_idle _ _ _ _ _ Hs).
Qed.
(** Goroutine 1 reads "k" past its deadline and is overtaken by the lock holder. *)
Example C49_one_reader_nonvacuous :
  events_of ([AInv 0 (CSetEX (bs "k") (bs "v") 1)] ++ runs 0 5 ++ [ARet 0; ATick 5000000000; AInv 1 (CGet (bs "k"))] ++
    runs 1 2 ++ [AInv 2 (CGet (bs "n"))] ++ runs 2 3 ++ [ARet 2; AInv 0 (CSetEX (bs "k") (bs "w") 100)] ++ runs 1 5 ++ runs 0 5 ++ [ARet 0; ARet 1; AInv 1 (CGet (bs "k"))] ++ runs 1 5 ++ [ARet 1]) (new_world 0) =
  Some [EInv 0 (CSetEX (bs "k") (bs "v") 1); ERet 0 (RStr (bs "OK", None)); ETick 5000000000; EInv 1 (CGet (bs "k"));
        EInv 2 (CGet (bs "n")); ERet 2 (RStr ([], Some ErrKeyNil)); EInv 0 (CSetEX (bs "k") (bs "w") 100); ERet 0 (RStr (bs "OK", None));
        ERet 1 (RStr ([], Some ErrKeyNil)); EInv 1 (CGet (bs "k")); ERet 1 (RStr (bs "w", None))].
Proof. vm_compute. reflexivity. Qed.

(** the calls of a linearization are calls that were issued *)
Lemma lin_issued w0 A m clk last ws (P : call -> Prop) : lin_ok w0 A m clk last ws -> calls_in P (observed A) -> all_calls (fun _ c => P c) (lin_calls A).
Proof.
  intros HA HP. pose proof (lin_ok_calls _ _ _ _ _ _ HA) as Hp. apply Forall_forall. intros [t cl] Hx. cbn [snd].
  assert (Hx' : cl ∈ issued (observed A)). { rewrite Hp. apply elem_of_app. left. apply elem_of_list_fmap. exists (t, cl). split; [reflexivity|apply elem_of_list_In, Hx]. }
  unfold issued in Hx'. apply elem_of_list_omap in Hx' as (e & He' & Hcl). destruct e; try discriminate. injection Hcl as ->. exact (HP _ _ He').
Qed.
Lemma a_mget_purge t ks : forall V k, fst (a_mget t ks V) k = V k \/ fst (a_mget t ks V) k = purge t (V k).
Proof.
  assert (Hpp : forall v, purge t (purge t v) = purge t v). { intros [[x|] [dl|]]; cbn; try reflexivity. destruct (dl <? t) eqn:E; cbn; rewrite ?E; reflexivity. }
  induction ks as [|k' r IH]; intros V k; [left; reflexivity|]. cbn [a_mget].
  specialize (IH (upd V k' (purge t (V k'))) k). destruct (a_mget t r _) as [V' l]. cbn [fst] in *.
  unfold upd in IH. destruct (decide (k = k')) as [->|]; [|exact IH]. rewrite Hpp in IH. right. destruct IH; assumption.
Qed.
Lemma abs_reads_purge c t V V' r k : reads c -> abs c t V = Some (V', r) -> V' k = V k \/ V' k = purge t (V k).
Proof.
  intros Hc Ha. destruct c; try destruct Hc; cbn [abs keys_of abs1] in Ha.
  all: try (injection Ha as <- _; unfold upd; destruct (decide _) as [->|]; auto; fail).
  - destruct (a_mget t ks V) as [V1 n] eqn:E. injection Ha as <- <-. change V1 with (fst (V1, n)). rewrite <- E. apply a_mget_purge.
  - injection Ha as <- _. auto.
Qed.
Definition gone (k : gostr) (t1 : Z) (w : world) : Prop := fst (view w k) = None \/ exists dl, snd (view w k) = Some dl /\ dl < t1.
Lemma reads_expired h k t1 : forall w w' rs, ready w -> gone k t1 w -> run_hist h w = Done w' rs ->
  all_calls (fun _ c => names c k -> reads c) h -> gone k t1 w'.
Proof.
  induction h as [|[t c] h IH]; intros w w' rs Hr Hd; simpl; [intros E; injection E as <- <-; auto|].
  destruct (run_call t c w) as [w1 x| |] eqn:E1; [|discriminate|discriminate].
  destruct (run_hist h w1) as [w2 xs| |] eqn:E2; [|discriminate|discriminate].
  intros E Hall; injection E as <- <-. apply Forall_cons_1 in Hall as [H1 H2]. simpl in H1.
  destruct (run_inv _ _ _ _ _ Hr E1) as (V' & Ha & Hr1 & Hv).
  refine (IH w1 w2 xs Hr1 _ E2 H2). unfold gone in *. rewrite Hv.
  assert (Hdec : names c k \/ ~ names c k). { unfold names. destruct (keys_of c); [|auto]. destruct (decide (k ∈ l)); auto. }
  destruct Hdec as [Hn|Hn]; [|rewrite (abs_ne _ _ _ _ _ _ Hn Ha); exact Hd].
  destruct (abs_reads_purge _ _ _ _ _ k (H1 Hn) Ha) as [->| ->]; [exact Hd|].
  destruct (view w k) as [[x0|] [dl|]]; cbn [purge fst snd] in *; auto. destruct (dl <? t); cbn; auto.
Qed.
Lemma run_hist_app h1 : forall h2 w w' rs, run_hist (h1 ++ h2) w = Done w' rs -> exists w1 rs1 rs2, run_hist h1 w = Done w1 rs1 /\ run_hist h2 w1 = Done w' rs2 /\ rs = rs1 ++ rs2.
Proof.
  induction h1 as [|[t c] h IH]; intros h2 w w' rs; cbn [app run_hist]; [intros E; exists w, [], rs; auto|].
  destruct (run_call t c w) as [w1 x| |]; [|discriminate|discriminate]. destruct (run_hist (h ++ h2) w1) as [w2 xs| |] eqn:E; [|discriminate|discriminate].
  intros [= <- <-]. destruct (IH _ _ _ _ E) as (w3 & rs1 & rs2 & I1 & I2 & ->). exists w3, (x :: rs1), rs2. rewrite I1. auto.
Qed.
Lemma lin_calls_app A B : lin_calls (A ++ B) = lin_calls A ++ lin_calls B.
Proof. unfold lin_calls. apply omap_app. Qed.
Lemma lin_replies_app A B : lin_replies (A ++ B) = lin_replies A ++ lin_replies B.
Proof. unfold lin_replies. apply omap_app. Qed.
Lemma lin_lengths A : length (lin_calls A) = length (lin_replies A).
Proof. induction A as [|[e|i t c r] A IH]; cbn; auto. Qed.
Lemma run_hist_length h : forall w w' rs, run_hist h w = Done w' rs -> length rs = length h.
Proof.
  induction h as [|[t c] h IH]; intros w w' rs; cbn [run_hist]; [intros [= <- <-]; reflexivity|].
  destruct (run_call t c w) as [w1 x| |]; [|discriminate|discriminate]. destruct (run_hist h w1) as [w2 xs| |] eqn:E; [|discriminate|discriminate].
  intros [= <- <-]. cbn. f_equal. eauto.
Qed.
(** the state and the reply at a decision point *)
Lemma lin_at A1 i t c r A2 w ws : run_hist (lin_calls (A1 ++ ILin i t c r :: A2)) w = Done ws (lin_replies (A1 ++ ILin i t c r :: A2)) ->
  exists w1 w2, run_hist (lin_calls A1) w = Done w1 (lin_replies A1) /\ run_call t c w1 = Done w2 r /\ run_hist (lin_calls A2) w2 = Done ws (lin_replies A2).
Proof.
  rewrite lin_calls_app, lin_replies_app. intros H. apply run_hist_app in H as (w1 & rs1 & rs2 & H1 & H2 & Hrs).
  pose proof (run_hist_length _ _ _ _ H1) as HL. rewrite lin_lengths in HL. apply app_inj_1 in Hrs as [<- <-]; [|auto].
  cbn in H2. destruct (run_call t c w1) as [w2 x| |] eqn:E; [|discriminate|discriminate]. fold (lin_calls A2) in H2. fold (lin_replies A2) in H2.
  destruct (run_hist (lin_calls A2) w2) as [w3 xs| |] eqn:E2; [|discriminate|discriminate]. injection H2 as -> -> ->. eauto.
Qed.
(** A Get issued after the deadline of its key has passed does not return the value, whatever the
    other goroutines do to other keys. *)
Theorem C49_one_reader_per_key_partial (owner : gostr -> nat) w0 k dl s c p1 i p2 r p3 :
  ready w0 -> deadline w0 k = Some dl -> dl < clock (w_now w0) p1 ->
  (forall j cl, EInv j cl ∈ p1 ++ EInv i (CGet k) :: p2 ++ ERet i r :: p3 -> (takes_lock cl /\ ~ names cl k) \/
     exists k', owner k' = j /\ (cl = CGet k' \/ cl = CStrLen k' \/ exists a b, cl = CGetRange k' a b)) ->
  cexec s (start w0) = Some (c, p1 ++ EInv i (CGet k) :: p2 ++ ERet i r :: p3) -> Forall (fun e => who e <> Some i) p2 ->
  r = RStr ([], Some ErrKeyNil).
Proof.
  intros Hr Hd Hlt Hc E Hp2. destruct (C49_one_reader_per_key_linearizable_partial owner w0 s c _ Hr (fun j cl H => match Hc j cl H with or_introl (conj a _) => or_introl a | or_intror b => or_intror b end) E) as (A & m & last & ws & HA & Ho & Hh & _).
  destruct (lin_between _ _ _ _ _ _ _ _ _ _ _ HA _ Ho Hp2) as (A1 & t & A2 & q & q' & -> & Ht & _).
  apply lin_at in Hh as (w1 & w2 & H1 & H2 & _).
  assert (Hall : all_calls (fun _ c => names c k -> reads c) (lin_calls (A1 ++ ILin i t (CGet k) r :: A2))).
  { eapply (lin_issued _ _ _ _ _ _ (fun c => names c k -> reads c)); [exact HA|]. rewrite Ho. intros j cl Hj Hn. destruct (Hc j cl Hj) as [[_ H]|(k' & _ & [->|[->|(a & b & ->)]])]; [elim (H Hn)|exact I|exact I|exact I]. }
  rewrite lin_calls_app in Hall. apply Forall_app in Hall as [Hall _].
  assert (Hg : gone k t w1). { eapply reads_expired; eauto. right. exists dl. rewrite view_dl by exact Hr. split; [exact Hd|lia]. }
  assert (Hr1 : ready w1) by (eapply ready_hist; eauto).
  assert (Ha : answer t (CGet k) w1 = Some r) by (unfold answer; rewrite H2; reflexivity). rewrite (answer_single _ k) in Ha by auto. cbn [abs1] in Ha.
  assert (Hn : fst (purge t (view w1 k)) = None).
  { destruct Hg as [Hg|(dl' & Hg & Hlt')]; destruct (view w1 k) as [[x|] [d|]]; cbn [fst snd purge] in *; try discriminate; try reflexivity. injection Hg as ->. destruct (Z.ltb_spec dl' t); [reflexivity|lia]. }
  rewrite Hn in Ha. injection Ha as <-. reflexivity.
Qed.

(** ** C50 *)
Theorem C50_concurrent_hset_lost_refuted :
  exists k f g v s,
    f <> g /\ events_of s (new_world 0) =
    Some [EInv 1 (CHSet k f v); EInv 2 (CHSet k g v); ERet 1 (RInt (1, None)); ERet 2 (RInt (1, None));
          EInv 1 (CHGet k f); ERet 1 (RStr ([], Some ErrKeyNil))].
Proof.
  exists (bs "k"), (bs "f"), (bs "g"), (bs "v"), ([AInv 1 (CHSet (bs "k") (bs "f") (bs "v")); AInv 2 (CHSet (bs "k") (bs "g") (bs "v"))] ++
    runs 1 1 ++ runs 2 1 ++ runs 1 5 ++ runs 2 5 ++ [ARet 1; ARet 2; AInv 1 (CHGet (bs "k") (bs "f"))] ++ runs 1 3 ++ [ARet 1]). split; [discriminate|].
  vm_compute. reflexivity.
Qed.

(** The calls that leave the field [f] of [k] alone, or store [v] in it; they neither replace nor
    remove [k]. *)
Definition spares_field (k f v : gostr) (c : call) : Prop :=
  match c with
  | CFlush | CCron => False
  | CSet k' _ | CSetEX k' _ _ | CPSetEX k' _ _ | CGetSet k' _ | CDel k' => k' <> k
  | CMSet kv => k ∉ map fst kv
  | CHSet k' g v' => k' = k -> g = f -> v' = v
  | CHDel k' fs => k' = k -> f ∉ fs
  | CHIncrBy k' g _ | CHIncrByFloat k' g _ => k' = k -> g <> f
  | CHMSet k' fv => k' = k -> f ∉ map fst fv
  | _ => True
  end.
Lemma spares_spares k f v cl : spares_field k f v cl -> spares k f (fun _ => True) (fun y => y = Some (try_int64 v)) cl.
Proof.
  intros Hc. destruct cl; cbn in *; auto; unfold may, may_new; try (intros E1 E2; specialize (Hc E1 E2); congruence).
  - intros E1 E2. rewrite (Hc E1 E2). auto.
  - intros E1 E2. split; [auto|discriminate].
  - intros E1 E2. elim (Hc E1 E2).
  - intros E1 E2. elim (Hc E1 E2).
  - intros E1 E2. elim (Hc E1 E2).
  - intros E1 v' Hin. elim (Hc E1). apply elem_of_list_fmap. exists (f, v'). auto.
Qed.
(** Full statement: the same with [k] absent when the calls start, which is refuted above. When [k]
    already holds a hash (and no deadline), an HSet that has returned is seen by every later HGet,
    whatever the other goroutines do to other fields and other keys. *)
Theorem C50_existing_hash_partial w0 k f v l s c p1 i p2 ri p3 j p4 rj p5 :
  ready w0 -> stored w0 k = Some (VHash l) -> deadline w0 k = None ->
  (forall n cl, EInv n cl ∈ p1 ++ p2 ++ p3 ++ p4 -> spares_field k f v cl) ->
  cexec s (start w0) = Some (c, p1 ++ EInv i (CHSet k f v) :: p2 ++ ERet i ri :: p3 ++ EInv j (CHGet k f) :: p4 ++ ERet j rj :: p5) ->
  Forall (fun e => who e <> Some i) p2 -> Forall (fun e => who e <> Some j) p4 ->
  rj = RStr (text v, None).
Proof.
  intros Hr Hs Hd Hc E Hp2 Hp4. destruct Hr as [R1 R2 (d & Ed & Hptr & Huniq) [e Ee] R5 R6]. unfold stored in Hs. unfold deadline in Hd. rewrite Ed in Hs. rewrite Ee in Hd.
  destruct (Hptr _ _ Hs) as [o Ho].
  set (X1 := fun y => y = Some (try_int64 v)).
  refine (establish (ConcHash.I_ k f (fun _ => True) l) (J_ k f X1 l) (fun r => r = RStr (text v, None)) w0 s c p1 i (CHSet k f v) p2 ri p3 j (CHGet k f) p4 rj p5 _ _ _ _ _ _ _ E Hp2 Hp4).
  - apply J_I. auto.
  - apply I_stable.
  - apply J_stable.
  - exists d, e, o. repeat (split; [auto; fail|]). split; [eauto|]. split; [apply R5; eauto|exact I].
  - intros n cl H. apply (kp_call k f (fun _ => True) X1 l). apply spares_spares, (Hc n cl H).
  - apply hset_est; [auto|]. split; [exact I|reflexivity].
  - eapply keeps_weaken; [|eapply (kr_hget k f X1 X1 l)]. intros r (y & -> & ->). cbn. unfold shown. rewrite fmt_try. reflexivity.
Qed.
Example C50_existing_hash_nonvacuous :
  (exists l, stored demo (bs "h") = Some (VHash l)) /\ deadline demo (bs "h") = None /\
  match cexec ([AInv 1 (CHSet (bs "h") (bs "x") (bs "1")); AInv 2 (CHSet (bs "h") (bs "y") (bs "2"))] ++
    runs 1 2 ++ runs 2 2 ++ runs 1 3 ++ runs 2 3 ++ [ARet 1; ARet 2; AInv 3 (CHGet (bs "h") (bs "x"))] ++ runs 3 3 ++ [ARet 3; AInv 3 (CHGet (bs "h") (bs "y"))] ++ runs 3 3 ++ [ARet 3]) (start demo) with
  | Some (_, evs) => evs = [EInv 1 (CHSet (bs "h") (bs "x") (bs "1")); EInv 2 (CHSet (bs "h") (bs "y") (bs "2")); ERet 1 (RInt (1, None)); ERet 2 (RInt (1, None));
      EInv 3 (CHGet (bs "h") (bs "x")); ERet 3 (RStr (bs "1", None)); EInv 3 (CHGet (bs "h") (bs "y")); ERet 3 (RStr (bs "2", None))]
  | None => False end.
Proof.
  split; [|split; [vm_compute; reflexivity|vm_compute; reflexivity]].
  assert (H3 : match stored demo (bs "h") with Some (VHash _) => True | _ => False end) by (vm_compute; exact I).
  destruct (stored demo (bs "h")) as [x|]; [|destruct H3]. destruct x as [ | | | | | | | |l]; try contradiction. eauto.
Qed.

(** ** C51 *)
Theorem C51_fresh_value_lost_refuted :
  exists k v s t,
    t < 100 * second /\ events_of s (new_world 0) =
    Some [EInv 0 (CSetEX k v 1); ERet 0 (RStr (bs "OK", None)); ETick t; EInv 1 (CType k);
          EInv 0 (CSetEX k v 100); ERet 0 (RStr (bs "OK", None)); ERet 1 (RStr (bs "none", None)); EInv 0 (CGet k); ERet 0 (RStr ([], Some ErrKeyNil))].
Proof.
  exists (bs "k"), (bs "v"), ([AInv 0 (CSetEX (bs "k") (bs "v") 1)] ++ runs 0 5 ++ [ARet 0; ATick 5000000000; AInv 1 (CType (bs "k"))] ++ runs 1 3 ++
     [AInv 0 (CSetEX (bs "k") (bs "v") 100)] ++ runs 0 5 ++ [ARet 0] ++ runs 1 2 ++ [ARet 1; AInv 0 (CGet (bs "k"))] ++ runs 0 3 ++ [ARet 0]), 5000000000.
  split; [reflexivity|]. vm_compute. reflexivity.
Qed.

(** Full statement: the same for all readers, i.e. without the restriction on the calls, which is
    refuted above. When the readers hold the read lock and every key has one reader, a value stored
    with a deadline is readable until the deadline. *)
Theorem C51_one_reader_per_key_partial (owner : gostr -> nat) w0 k v n s c p1 i p2 r p3 j p4 r' p5 :
  let evs := p1 ++ EInv i (CSetEX k v n) :: p2 ++ ERet i r :: p3 ++ EInv j (CGet k) :: p4 ++ ERet j r' :: p5 in
  ready w0 -> 0 < n * second < 2 ^ 63 ->
  (forall l cl, EInv l cl ∈ p1 ++ p2 ++ p3 ++ p4 ++ p5 -> (takes_lock cl /\ ~ names cl k) \/
     exists k', owner k' = l /\ (cl = CGet k' \/ cl = CStrLen k' \/ exists a b, cl = CGetRange k' a b)) -> owner k = j ->
  cexec s (start w0) = Some (c, evs) -> Forall (fun e => who e <> Some i) p2 -> Forall (fun e => who e <> Some j) p4 ->
  w_now (c_w c) <= clock (w_now w0) p1 + n * second ->
  r' = RStr (text v, None).
Proof.
  intros evs Hr Hn Hc Hj E Hp2 Hp4 Hend.
  assert (Hel : forall l cl, EInv l cl ∈ evs -> (l = i /\ cl = CSetEX k v n) \/ (l = j /\ cl = CGet k) \/ EInv l cl ∈ p1 ++ p2 ++ p3 ++ p4 ++ p5).
  { intros l cl H. unfold evs in H. rewrite !elem_of_app.
    repeat (apply elem_of_app in H as [H|H] || apply elem_of_cons in H as [H|H]); try discriminate H; try (injection H as -> ->); tauto. }
  destruct (C49_one_reader_per_key_linearizable_partial owner w0 s c evs Hr) as (A & m & last & ws & HA & Ho & Hh & _); [|exact E|].
  { intros l cl H. destruct (Hel l cl H) as [[-> ->]|[[-> ->]|H']]; [left; exact I|right; exists k; auto|]. destruct (Hc l cl H') as [[H1 _]|H1]; auto. }
  pose proof (lin_ok_calls _ _ _ _ _ _ HA) as Hperm. destruct (lin_clock _ _ _ _ _ _ HA) as (_ & _ & Hclk).
  destruct (lin_order _ _ _ _ _ _ _ _ _ _ _ _ _ _ _ _ _ HA Ho Hp2 Hp4) as (A1 & t & A2 & t' & A3 & EA & Ht & _). subst A.
  pose proof Hh as Hh'. apply lin_at in Hh' as (w1 & w2 & H1 & H2 & H3). apply lin_at in H3 as (w3 & w4 & H3 & H4 & _).
  assert (Hall : Forall (fun cl => ~ names cl k \/ reads cl) (map snd (lin_calls A2))).
  { rewrite Ho in Hperm. unfold evs, issued in Hperm. repeat (rewrite omap_app in Hperm || cbn [omap list_omap] in Hperm).
    rewrite lin_calls_app in Hperm. cbn [lin_calls omap list_omap] in Hperm. fold (lin_calls (A2 ++ ILin j t' (CGet k) r' :: A3)) in Hperm. rewrite lin_calls_app in Hperm.
    rewrite map_app in Hperm. cbn [map snd] in Hperm. rewrite <- !app_assoc in Hperm. cbn [app] in Hperm. apply Permutation_app_inv in Hperm.
    assert (HF : Forall (fun cl => ~ names cl k \/ reads cl) (issued (p1 ++ p2 ++ p3 ++ p4 ++ p5))).
    { apply Forall_forall. intros cl Hcl. apply elem_of_list_In in Hcl. unfold issued in Hcl. apply elem_of_list_omap in Hcl as (e & He & Hcl). destruct e as [l cl'| |]; try discriminate. injection Hcl as ->.
      destruct (Hc l cl He) as [[_ H]|(k' & _ & [->|[->|(a & b & ->)]])]; [left; exact H|right; exact I|right; exact I|right; exact I]. }
    unfold issued in HF. rewrite !omap_app in HF. 
    assert (HF2 : Forall (fun cl => ~ names cl k \/ reads cl) (map snd (lin_calls A1) ++ map snd (lin_calls A2 ++ lin_calls (ILin j t' (CGet k) r' :: A3)) ++ pending m)).
    { rewrite <- Hperm. rewrite !Forall_app in *. destruct HF as (F1 & F2 & F3 & F4 & F5). repeat split; auto. constructor; [right; exact I|]. rewrite !Forall_app. auto. }
    rewrite map_app, !Forall_app in HF2. apply HF2. }
  assert (Htt : all_calls (fun tc c => ~ names c k \/ (reads c /\ tc <= t + 1000000000 * n)) (lin_calls A2) /\ t' <= t + 1000000000 * n).
  { unfold second in *. rewrite !lin_calls_app in Hclk. cbn [lin_calls omap list_omap] in Hclk. fold (lin_calls (A2 ++ ILin j t' (CGet k) r' :: A3)) in Hclk. rewrite lin_calls_app in Hclk. cbn [lin_calls omap list_omap] in Hclk.
    fold (lin_calls A3) in Hclk. fold (lin_calls A2) in *. apply Forall_app in Hclk as [_ Hclk]. apply Forall_cons_1 in Hclk as [_ Hclk]. apply Forall_app in Hclk as [HC1 HC2]. apply Forall_cons_1 in HC2 as [HC2 _]. cbn [fst] in HC2.
    split; [|lia]. apply Forall_fmap in Hall. unfold all_calls. rewrite !List.Forall_forall in *. intros x Hx. specialize (Hall x Hx). specialize (HC1 x Hx). cbn in Hall, HC1. destruct Hall as [Hall|Hall]; [left; exact Hall|right]. split; [exact Hall|lia]. }
  destruct Htt as [Htt1 Htt2].
  assert (Hr1 : ready w1) by (eapply ready_hist; eauto).
  pose proof (C05_never_early w1 t k v false n w2 r (lin_calls A2) w3 _ t' Hr1 ltac:(unfold second in Hn; lia) H2 H3 Htt1 Htt2) as Ha.
  unfold answer in Ha. rewrite H4 in Ha. injection Ha as ->. reflexivity.
Qed.
Example C51_one_reader_nonvacuous :
  events_of ([AInv 0 (CSetEX (bs "k") (bs "v") 1)] ++ runs 0 5 ++ [ARet 0; ATick 5000000000; AInv 1 (CGet (bs "k"))] ++ runs 1 3 ++
     [AInv 0 (CSetEX (bs "k") (bs "v") 100)] ++ runs 1 4 ++ runs 0 5 ++ [ARet 0; ARet 1; AInv 1 (CGet (bs "k"))] ++ runs 1 5 ++ [ARet 1]) (new_world 0) =
  Some [EInv 0 (CSetEX (bs "k") (bs "v") 1); ERet 0 (RStr (bs "OK", None)); ETick 5000000000; EInv 1 (CGet (bs "k"));
        EInv 0 (CSetEX (bs "k") (bs "v") 100); ERet 0 (RStr (bs "OK", None)); ERet 1 (RStr ([], Some ErrKeyNil)); EInv 1 (CGet (bs "k")); ERet 1 (RStr (bs "v", None))].
Proof. vm_compute. reflexivity. Qed.

(** ** C52 *)
Theorem C52_mset_torn_refuted :
  exists k1 k2 v s,
    k1 <> k2 /\ events_of s (new_world 0) =
    Some [EInv 1 (CMSet [(k1, v); (k2, v)]); EInv 2 (CMGet [k1; k2]); ERet 2 (RSlots ([SlotStr v; SlotErr ErrKeyNil], None)); ERet 1 (RStr (bs "OK", None))].
Proof.
  exists (bs "a"), (bs "b"), (bs "v"), ([AInv 1 (CMSet [(bs "a", bs "v"); (bs "b", bs "v")]); ARun 1; AInv 2 (CMGet [bs "a"; bs "b"])] ++ runs 2 3 ++ [ARet 2; ARun 1; ARet 1]).
  split; [discriminate|]. vm_compute. reflexivity.
Qed.

(** Full statement: a concurrent reader sees all pairs or none; refuted above. What holds for every
    key of the MSet: once the MSet has returned, every later Get sees the new value, … *)
Theorem C52_all_seen_after_return_partial w0 k v kv s c p1 i p2 ri p3 j p4 rj p5 :
  ready w0 -> deadline w0 k = None -> (k, v) ∈ kv -> NoDup (map fst kv) ->
  (forall n cl, EInv n cl ∈ p1 ++ p2 ++ p3 ++ p4 -> ~ names cl k \/ reads cl) ->
  cexec s (start w0) = Some (c, p1 ++ EInv i (CMSet kv) :: p2 ++ ERet i ri :: p3 ++ EInv j (CGet k) :: p4 ++ ERet j rj :: p5) ->
  Forall (fun e => who e <> Some i) p2 -> Forall (fun e => who e <> Some j) p4 ->
  rj = RStr (text v, None).
Proof.
  intros Hr Hd Hin Hnd Hc E Hp2 Hp4. destruct Hr as [R1 R2 (d & Ed & _) [e Ee] R5 R6]. unfold deadline in Hd. rewrite Ee in Hd.
  set (S1 := fun y : option gval => y = Some (try_int64 v)).
  assert (Huniq : forall v', (k, v') ∈ kv -> v' = v).
  { clear - Hin Hnd. induction kv as [|[k1 v1] r IH]; [inversion Hin|]. cbn in Hnd. apply list.NoDup_cons in Hnd as [Hk Hnd]. intros v'. rewrite !elem_of_cons in *.
    assert (Hno : forall y, (k, y) ∈ r -> k1 <> k). { intros y Hy ->. apply Hk. apply elem_of_list_fmap. exists (k, y). auto. }
    intros H. destruct Hin as [[= <- <-]|Hin], H as [[= <-]|H]; auto; [elim (Hno _ H); auto|elim (Hno _ Hin); congruence]. }
  refine (establish (vinv k (fun _ => True)) (vinv k S1) (fun r => r = RStr (text v, None)) w0 s c p1 i (CMSet kv) p2 ri p3 j (CGet k) p4 rj p5 _ _ _ _ _ _ _ E Hp2 Hp4).
  - intros w. apply vinv_JI. auto.
  - apply vinv_stable.
  - apply vinv_stable.
  - exists d, e. auto.
  - intros n cl H. apply ks_call; eauto.
  - apply (mset_est k (fun _ => True) S1 (fun _ _ => I) kv v); auto. reflexivity.
  - eapply keeps_weaken; [|apply (ks_get k S1 S1); auto]. intros r (y & -> & ->). cbn beta iota. unfold fmt_ret. rewrite fmt_try. reflexivity.
Qed.
(** … and every MGet sees, under that key, the value before the MSet or the new one. *)
Theorem C52_old_or_new_partial w0 k v kv o s c p1 j ks p2 rj p3 :
  ready w0 -> deadline w0 k = None -> (forall v', (k, v') ∈ kv -> v' = v) ->
  answer (w_now w0) (CMGet [k]) w0 = Some (RSlots ([o], None)) ->
  (forall n cl, EInv n cl ∈ p1 ++ p2 -> cl = CMSet kv \/ ~ names cl k \/ reads cl) ->
  cexec s (start w0) = Some (c, p1 ++ EInv j (CMGet ks) :: p2 ++ ERet j rj :: p3) ->
  Forall (fun e => who e <> Some j) p2 ->
  exists sl, rj = RSlots (sl, None) /\ forall n, ks !! n = Some k -> sl !! n = Some o \/ sl !! n = Some (SlotStr (text v)).
Proof.
  intros Hr Hd Huniq Ho Hc E Hp2. pose proof Hr as [R1 R2 (d & Ed & _) [e Ee] R5 R6]. unfold deadline in Hd. rewrite Ee in Hd.
  set (S := fun y : option gval => slot_of y = o \/ y = Some (try_int64 v)).
  assert (Hslot : slot_of (d !! k) = o).
  { unfold answer, run_call in Ho. cbn [call_prog] in Ho. unfold pmap, m_mget in Ho. cbn [mget_loop] in Ho. rewrite !eval_bind in Ho. unfold c_get in Ho. rewrite eval_bind in Ho. cbn [eval data_load atom] in Ho. cbn in Ho. rewrite Ed in Ho.
    destruct (d !! k) as [y|]; [|cbn in Ho; injection Ho as <-; reflexivity]. cbn in Ho. rewrite Ee in Ho. cbn in Ho. rewrite Hd in Ho. cbn in Ho. injection Ho as <-. reflexivity. }
  refine (observe (vinv k S) (fun rj => exists sl, rj = RSlots (sl, None) /\ forall n, ks !! n = Some k -> sl !! n = Some o \/ sl !! n = Some (SlotStr (text v))) w0 s c p1 j (CMGet ks) p2 rj p3 _ _ _ _ E Hp2).
  - apply vinv_stable.
  - exists d, e. repeat (split; [assumption|]). left. exact Hslot.
  - intros n cl H. destruct (Hc n cl H) as [->|H']; [|apply ks_call; auto]. cbn [call_prog]. unfold pmap, m_mset. eapply (keeps_bind _ _ top); [|intros; constructor; exact I].
    eapply (keeps_bind _ _ top); [|intros; constructor; exact I]. apply (ks_mset_same k S S) with v; auto; [..|right; reflexivity|right; reflexivity].
  - eapply keeps_weaken; [|apply (ks_mget_call k S S); auto]. intros r (sl & -> & Hsl). exists sl. split; [reflexivity|]. intros n Hn. destruct (Hsl n Hn) as (y & [<-| ->] & ->); [left; reflexivity|right].
    unfold slot_of. rewrite fmt_try. reflexivity.
Qed.
Example C52_partial_nonvacuous :
  match cexec ([AInv 1 (CMSet [(bs "a", bs "7"); (bs "b", bs "8")]); ARun 1; AInv 2 (CMGet [bs "a"; bs "b"])] ++ runs 2 3 ++ [ARet 2; ARun 1; ARet 1; AInv 2 (CMGet [bs "b"; bs "a"])] ++ runs 2 4 ++ [ARet 2; AInv 2 (CGet (bs "b"))] ++ runs 2 4 ++ [ARet 2]) (start (new_world 0)) with
  | Some (_, evs) => evs = [EInv 1 (CMSet [(bs "a", bs "7"); (bs "b", bs "8")]); EInv 2 (CMGet [bs "a"; bs "b"]); ERet 2 (RSlots ([SlotStr (bs "7"); SlotErr ErrKeyNil], None)); ERet 1 (RStr (bs "OK", None));
      EInv 2 (CMGet [bs "b"; bs "a"]); ERet 2 (RSlots ([SlotStr (bs "8"); SlotStr (bs "7")], None)); EInv 2 (CGet (bs "b")); ERet 2 (RStr (bs "8", None))]
  | None => False end /\ deadline (new_world 0) (bs "b") = None /\ answer 0 (CMGet [bs "b"]) (new_world 0) = Some (RSlots ([SlotErr ErrKeyNil], None)).
Proof. vm_compute. auto. Qed.

(** ** C53 *)
Theorem C53_no_deadlock w0 s c evs :
  ready w0 -> cexec s (start w0) = Some (c, evs) ->
  (c_th c <> ∅ -> exists i, enabled c i) /\
  (c_th c = ∅ -> w_writer (c_w c) = false /\ w_readers (c_w c) = 0%nat).
Proof.
  intros Hr E. destruct (linv_exec false w0 s c evs Hr) as (h & R & Hl); [intros i cl _ H; discriminate H|exact E|].
  split; [eapply linv_enabled; eauto|eapply linv_idle; eauto].
Qed.
(** In the state of the example both goroutines are inside a call, one is blocked and the other can move. *)
Example C53_nonvacuous : exists c evs, cexec [AInv 1 (CSet (bs "k") (bs "v")); AInv 2 (CGet (bs "k")); ARun 1] (start demo) = Some (c, evs) /\
  enabled c 1 /\ ~ enabled c 2 /\ c_th c <> ∅.
Proof.
  assert (H : match cexec [AInv 1 (CSet (bs "k") (bs "v")); AInv 2 (CGet (bs "k")); ARun 1] (start demo) with
    | Some (c, _) => enabled c 1 /\ ~ enabled c 2 /\ match c_th c !! 1%nat with Some _ => True | None => False end
    | None => False end) by (vm_compute; tauto).
  destruct (cexec _ _) as [[c evs]|]; [|destruct H]. exists c, evs. destruct H as (H1 & H2 & H3). split; [reflexivity|]. split; [exact H1|]. split; [exact H2|].
  intros He. rewrite He, lookup_empty in H3. exact H3.
Qed.

(** ** C104 *)
Theorem C104_concurrent_calls_never_crash w0 s c evs i :
  ready w0 -> calls_in (fun cl => match cl with CHKeys _ | CHVals _ | CHGetAll _ => False | CSetRange _ pos _ => pos <= 2 ^ 48 | _ => True end) evs ->
  cexec s (start w0) = Some (c, evs) -> ~ crashing c i.
Proof.
  intros Hr Hc E. destruct (linv_exec true w0 s c evs Hr) as (h & R & Hl); [intros j cl Hj _; exact (Hc j cl Hj)|exact E|].
  eapply linv_no_crash; eauto.
Qed.
(** The excluded calls do crash, even on a key that holds a hash when they are issued. *)
Theorem C104_excluded_calls_do_crash : exists w0 k l s c evs,
  ready w0 /\ stored w0 k = Some (VHash l) /\ cexec s (start w0) = Some (c, evs) /\
  evs = [EInv 1 (CHKeys k); EInv 2 (CDel k); ERet 2 (RInt (1, None))] /\ crashing c 1.
Proof.
  set (s := [AInv 1 (CHKeys (bs "h")); AInv 2 (CDel (bs "h"))] ++ runs 2 6 ++ [ARet 2] ++ runs 1 1).
  assert (H : match cexec s (start demo) with
    | Some (c, evs) => evs = [EInv 1 (CHKeys (bs "h")); EInv 2 (CDel (bs "h")); ERet 2 (RInt (1, None))] /\ crashing c 1
    | None => False end) by (vm_compute; auto).
  destruct (cexec s (start demo)) as [[c evs]|] eqn:E; [|destruct H]. destruct H as [H1 H2].
  assert (H3 : match stored demo (bs "h") with Some (VHash _) => True | _ => False end) by (vm_compute; exact I).
  destruct (stored demo (bs "h")) as [x|] eqn:Es; [|destruct H3]. destruct x as [ | | | | | | | |l]; try contradiction.
  exists demo, (bs "h"), l, s, c, evs. split; [apply ready_reachable, demo_reachable|]. auto.
Qed.

(** ** C105 *)
(** The calls of C105: every string writer without a duration, Del, Flush, and the readers that look at one key. *)
Definition no_duration (c : call) : Prop :=
  match c with
  | CSet _ _ | CSetNX _ _ | CGetSet _ _ | CAppend _ _
  | CIncr _ | CIncrBy _ _ | CIncrByFloat _ _ | CDecr _ | CDecrBy _ _ | CDel _ | CFlush
  | CGet _ | CStrLen _ | CGetRange _ _ _ | CType _ | CExists [_] | CMGet [_] => True
  | CSetRange _ pos _ => pos <= max_alloc
  | _ => False
  end.
Theorem C105_readers_and_writers_linearizable w0 s c evs :
  ready w0 -> (forall k, deadline w0 k = None) -> calls_in no_duration evs -> cexec s (start w0) = Some (c, evs) ->
  exists A m last ws, lin_ok w0 A m (w_now (c_w c)) last ws /\ observed A = evs /\
    run_hist (lin_calls A) w0 = Done ws (lin_replies A) /\
    (c_th c = ∅ -> m = ∅ /\ same_cache (c_w c) ws).
Proof.
  intros Hr Hd Hc E. pose proof (linv_exec false w0 s c evs Hr (fun _ _ _ H => ltac:(discriminate H)) E) as (h0 & R0 & Hl).
  destruct Hr as [R1 R2 (d & Ed & _) [e Ee] _ _].
  assert (He : e = ∅). { apply map_empty. intros k. specialize (Hd k). unfold deadline in Hd. rewrite Ee in Hd. exact Hd. } subst e.
  destruct (lin_exec2 w0 s c evs d R1 R2) as (A & m & last & ws & h & R & d' & HA & Ho & Hs); auto.
  { split; auto. } { eapply calls_in_weaken; [|exact Hc]. intros cl Hcl. apply timeless_tcall. destruct cl; exact Hcl. }
  exists A, m, last, ws. split; [exact HA|]. split; [exact Ho|]. split; [eapply lin_ok_hist; eauto|].
  intros Hem. destruct (linv_idle _ _ _ _ Hl Hem) as [L1 L2]. destruct Hs as [_ _ _ _ _ Hsame Hth]. split.
  - apply map_eq. intros i. specialize (Hth i). rewrite Hem, lookup_empty in Hth. rewrite lookup_empty.
    destruct (m !! i) as [[]|]; [destruct Hth|destruct Hth|reflexivity].
  - unfold same_cache. transitivity (set_now (set_lock (c_w c) false 0) 0); [|rewrite Hsame; reflexivity].
    destruct (c_w c). cbn in *. subst. reflexivity.
Qed.
(** A Get that overlaps two writers and returns the value in between. *)
Example C105_nonvacuous :
  events_of ([AInv 1 (CAppend (bs "k") (bs "a")); AInv 2 (CGet (bs "k")); AInv 3 (CAppend (bs "k") (bs "b"))] ++ runs 1 3 ++ runs 2 3 ++ runs 3 4 ++ runs 2 2 ++ [ARet 3; ARet 2; ARet 1]) (new_world 0) = None /\
  events_of ([AInv 1 (CAppend (bs "k") (bs "a")); AInv 2 (CGet (bs "k")); AInv 3 (CAppend (bs "k") (bs "b"))] ++ runs 1 4 ++ runs 2 4 ++ runs 3 5 ++ [ARet 3; ARet 2; ARet 1]) (new_world 0) =
  Some [EInv 1 (CAppend (bs "k") (bs "a")); EInv 2 (CGet (bs "k")); EInv 3 (CAppend (bs "k") (bs "b")); ERet 3 (RInt (2, None)); ERet 2 (RStr (bs "a", None)); ERet 1 (RInt (1, None))].
Proof. split; vm_compute; reflexivity. Qed.
