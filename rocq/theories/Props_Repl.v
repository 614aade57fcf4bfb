(** * Props_Repl: replication (C97-C103, C111-C117) *)
From stdpp Require Import gmap.
From Verif Require Import Base GoFloat CacheModel CacheSpec CacheAbs CacheMain CacheLib RespModel RespSpec RespLib Props_Resp RdbModel RdbSpec RdbLib Props_Rdb ReplModel.

(** ** HandleMessage *)
(** a replicated command: the name in lower case, and the arguments *)
Definition command (m : option msg) : option (gostr * list gostr) :=
  match m with Some (MArr (c :: args)) => Some (go_lower (msg_string c), map msg_string args) | _ => None end.
Lemma ready_now t w : ready w -> ready (set_now w t).
Proof. intros [H1 H2 H3 H4 H5 H6]. split; auto. Qed.
Lemma run_set t k v w : ready w -> exists w', run_call t (CSet k v) w = Done w' (RStr (bs "OK", None)) /\ ready w'.
Proof.
  intros Hr. pose proof (refine (CSet k v) t w Hr) as H. 
  destruct (abs (CSet k v) t (view w)) as [[V' r]|] eqn:E; [|cbn in E; discriminate].
  destruct H as (w' & R & Hw & _). exists w'. cbn in E. injection E as _ <-. auto.
Qed.
(** what HandleMessage does with each message, on any cache that is in order *)
Inductive handled (t : Z) (w : world) : option (gostr * list gostr) -> hres -> Prop :=
| HSet k v r w' : run_call t (CSet k v) w = Done w' (RStr (bs "OK", None)) -> handled t w (Some (bs "set", k :: v :: r)) (HOk w')
| HSetShort args : (length args < 2)%nat -> handled t w (Some (bs "set", args)) HPanic
| HRPush k r : handled t w (Some (bs "rpush", k :: r)) HPanic
| HHMSet k r : handled t w (Some (bs "hmset", k :: r)) (HOk w)
| HOther name args : name <> bs "set" -> (args <> [] -> name <> bs "rpush" /\ name <> bs "hmset") -> handled t w (Some (name, args)) (HErr w)
| HNone : handled t w None (HErr w).
Lemma handle_spec t m w : ready w -> handled t w (command m) (handle_message t m w).
Proof.
  intros Hr. unfold handle_message, command. destruct m as [[| | | | |[|c args]]|]; try constructor. unfold gostr_eqb.
  destruct (bool_decide_reflect (go_lower (msg_string c) = bs "set")) as [->|N1].
  - destruct args as [|k [|v r]]; [constructor; cbn; lia|constructor; cbn; lia|]. destruct (run_set t (msg_string k) (msg_string v) w Hr) as (w' & R & _). rewrite R. constructor. exact R.
  - destruct (bool_decide_reflect (go_lower (msg_string c) = bs "rpush")) as [E|N2].
    + destruct args as [|k r]; [|rewrite E; constructor]. constructor; [auto|]. intros H. elim H. reflexivity.
    + destruct (bool_decide_reflect (go_lower (msg_string c) = bs "hmset")) as [E|N3].
      * destruct args as [|k r]; [|rewrite E; constructor]. constructor; [auto|]. intros H. elim H. reflexivity.
      * constructor; auto.
Qed.
Lemma handle_ready t m w : ready w -> match handle_message t m w with HOk w' | HErr w' => ready w' | HPanic => True | HBlocked => False end.
Proof.
  intros Hr. pose proof (handle_spec t m w Hr) as H. inversion H as [k v r w' R E1 E2| | | | |]; subst; auto.
  destruct (run_set t k v w Hr) as (w2 & R2 & Hw). congruence.
Qed.

(** ** C98: every replicated write takes effect or is reported
    Full statement: for every write command, HandleMessage changes the cache as the command says, or returns an error.
    Missing: hmset, which is accepted and does nothing. *)
Theorem C98_partial t m w w' name args : ready w -> command m = Some (name, args) -> name <> bs "hmset" -> handle_message t m w = HOk w' ->
  exists k v r, name = bs "set" /\ args = k :: v :: r /\ run_call t (CSet k v) w = Done w' (RStr (bs "OK", None)).
Proof.
  intros Hr Hc Hn E. pose proof (handle_spec t m w Hr) as H. rewrite Hc, E in H. inversion H; subst; [eauto 10|congruence].
Qed.
(** an error leaves the cache as it was *)
Theorem C98_reported_unchanged_partial t m w w' : ready w -> handle_message t m w = HErr w' -> w' = w.
Proof. intros Hr E. pose proof (handle_spec t m w Hr) as H. rewrite E in H. inversion H; reflexivity. Qed.
(** every hmset is dropped without a report *)
Theorem C98_refuted t m w k r : ready w -> command m = Some (bs "hmset", k :: r) -> handle_message t m w = HOk w.
Proof. intros Hr Hc. pose proof (handle_spec t m w Hr) as H. rewrite Hc in H. inversion H as [| | | |? ? ? Ho|]; subst; try reflexivity. destruct (Ho (fun e => ltac:(discriminate e))). congruence. Qed.
Example C98_ex : let m := Some (convert_to_message [bs "HMSET"; bs "h"; bs "f"; bs "v"]) in command m = Some (bs "hmset", [bs "h"; bs "f"; bs "v"]) /\
  match handle_message 0 m (new_world 0) with HOk w => CacheSpec.answer 0 (CHGet (bs "h") (bs "f")) w = Some (RStr ([], Some ErrKeyNil)) | _ => False end.
Proof. split; [reflexivity|]. vm_compute. reflexivity. Qed.
Example C98_ex2 : match handle_message 0 (Some (convert_to_message [bs "SET"; bs "k"; bs "v"])) (new_world 0) with HOk w => CacheSpec.answer 0 (CGet (bs "k")) w = Some (RStr (bs "v", None)) | _ => False end /\
  match handle_message 0 (Some (convert_to_message [bs "DEL"; bs "k"])) (new_world 0) with HErr _ => True | _ => False end.
Proof. split; vm_compute; auto. Qed.

(** ** C99: a malformed command is an error, not a crash
    Full statement: HandleMessage returns (nil or an error) for every message.
    Missing: set with fewer than two arguments, and rpush with any; both panic. *)
Theorem C99_exact_partial t m w : ready w ->
  (handle_message t m w = HPanic <-> exists name args, command m = Some (name, args) /\ ((name = bs "set" /\ (length args < 2)%nat) \/ (name = bs "rpush" /\ args <> []))).
Proof.
  intros Hr. pose proof (handle_spec t m w Hr) as H. split.
  - intros E. rewrite E in H. inversion H; subst; do 2 eexists; (split; [reflexivity|]); [left; auto|right; split; [reflexivity|discriminate]].
  - intros (name & args & Hc & Hn). rewrite Hc in H. inversion H; subst; try reflexivity; destruct Hn as [[E Hl]|[E Hl]]; try congruence; try discriminate E; try (cbn in Hl; lia). match goal with Ho : (?a <> [] -> _ /\ _) |- _ => destruct (Ho Hl) end. congruence.
Qed.
Theorem C99_partial t m w : ready w ->
  (forall name args, command m = Some (name, args) -> (name = bs "set" -> (2 <= length args)%nat) /\ (name = bs "rpush" -> args = [])) ->
  exists w', handle_message t m w = HOk w' \/ handle_message t m w = HErr w'.
Proof.
  intros Hr Hc. pose proof (handle_ready t m w Hr) as H. destruct (handle_message t m w) as [w'|w'| |] eqn:E; [eauto|eauto| |contradiction].
  apply C99_exact_partial in E as (name & args & Em & Hn); [|exact Hr]. destruct (Hc _ _ Em) as [H1 H2]. destruct Hn as [[-> Hl]|[-> Hl]]; [specialize (H1 eq_refl); lia|specialize (H2 eq_refl); congruence].
Qed.
Theorem C99_set_refuted : exists m, handle_message 0 (Some m) (new_world 0) = HPanic.
Proof. exists (convert_to_message [bs "set"; bs "k"]). vm_compute. reflexivity. Qed.
Theorem C99_rpush_refuted : exists m, handle_message 0 (Some m) (new_world 0) = HPanic.
Proof. exists (convert_to_message [bs "rpush"; bs "l"; bs "x"]). vm_compute. reflexivity. Qed.
Example C99_ex : let err m := match handle_message 0 m (new_world 0) with HErr _ => True | _ => False end in
  err None /\ err (Some MNil) /\ err (Some (MArr [])) /\ err (Some (MArr [MArr []])) /\ err (Some (convert_to_message [bs "rPush"])) /\ err (Some (convert_to_message [bs "expire"; bs "k"; bs "1"])).
Proof. vm_compute. repeat split. Qed.

(** ** the replication loop *)
Lemma rexec_app sel a : forall b s, rexec sel (a ++ b) s =
  match rexec sel a s with Some (s1, e1) => match rexec sel b s1 with Some (s2, e2) => Some (s2, e1 ++ e2) | None => None end | None => None end.
Proof.
  induction a as [|x a IH]; intros b s; cbn [app rexec]; [destruct (rexec sel b s) as [[? ?]|]; reflexivity|]. destruct (rstep sel x s) as [[s1 e1]|]; [|reflexivity]. rewrite IH.
  destruct (rexec sel a s1) as [[s2 e2]|]; [|reflexivity]. destruct (rexec sel b s2) as [[s3 e3]|]; [|reflexivity]. rewrite app_assoc. reflexivity.
Qed.
(** what the handler received, what is still on its way, and the set commands for the database *)
Definition took (evs : list revent) : list rmsg := flat_map (fun e => match e with VTook m => [m] | _ => [] end) evs.
Definition under_way (s : rs) : list rmsg := r_chan s ++ r_todo s ++ match r_wait s with WSend m => [RMsg 0 m] | _ => [] end.
Definition set_calls (sel : Z) (l : list rmsg) : list call :=
  flat_map (fun m => if rm_db m =? sel then match command (Some (rm_msg m)) with
    | Some (name, k :: v :: _) => if gostr_eqb name (bs "set") then [CSet k v] else []
    | _ => [] end else []) l.
Lemma took_app a b : took (a ++ b) = took a ++ took b.
Proof. apply flat_map_app. Qed.
Lemma set_calls_app sel a b : set_calls sel (a ++ b) = set_calls sel a ++ set_calls sel b.
Proof. apply flat_map_app. Qed.
Lemma recv_n_snoc k : forall s ms s1 m s2, recv_n k s = ROk ms s1 -> recv s1 = ROk m s2 -> recv_n (S k) s = ROk (ms ++ [m]) s2.
Proof.
  induction k as [|k IH]; intros s ms s1 m s2 H1 H2.
  - cbn in H1. injection H1 as <- <-. cbn [recv_n]. rewrite H2. reflexivity.
  - cbn [recv_n] in H1. destruct (recv s) as [m0 s0| | |] eqn:E; try discriminate. cbn [rbind] in H1. destruct (recv_n k s0) as [l0 s0'| | |] eqn:E0; try discriminate. cbn [rbind] in H1. injection H1 as <- <-.
    change (recv_n (S (S k)) s) with (rbind (recv s) (fun m s1 => rbind (recv_n (S k) s1) (fun l s2 => ROk (m :: l) s2))). rewrite E. cbn [rbind]. rewrite (IH _ _ _ _ _ E0 H2). reflexivity.
Qed.
Lemma run_hist_snoc h : forall w w1 rs t c w2 r, run_hist h w = Done w1 rs -> run_call t c w1 = Done w2 r -> run_hist (h ++ [(t, c)]) w = Done w2 (rs ++ [r]).
Proof.
  induction h as [|[t0 c0] h IH]; intros w w1 rs t c w2 r H1 H2.
  - cbn in H1. injection H1 as <- <-. cbn [app run_hist]. rewrite H2. reflexivity.
  - cbn [app run_hist] in *. destruct (run_call t0 c0 w) as [w0 r0| |]; try discriminate. destruct (run_hist h w0) as [w0' rs0| |] eqn:E; try discriminate. injection H1 as <- <-.
    rewrite (IH _ _ _ _ _ _ _ E H2). reflexivity.
Qed.

Section inv.
  (** [P l w]: the cache [w] is what the calls [l] made of it *)
  Variables (sel : Z) (P : list call -> world -> Prop) (ms0 : list rmsg) (net0 : rd).
  Hypothesis P_set : forall l w t k v w' r, P l w -> run_call t (CSet k v) w = Done w' r -> P (l ++ [CSet k v]) w'.
  Definition loop_inv (s : rs) (l : list rmsg) : Prop :=
    (exists k live, recv_n k net0 = ROk live (r_net s) /\ ms0 ++ map (RMsg 0) (filter (fun m => skipped m = false) live) = l ++ under_way s /\ (live <> [] -> r_todo s = [])) /\
    P (set_calls sel l) (r_w s) /\
    (r_wait s = WOff \/ (r_new s = NRet true /\ r_todo s = [])) /\ (r_wait s = WOff -> r_net s = net0).
  Lemma handle_inv t db m c ev s s' e l : handle sel t db m c ev s = Some (s', e) ->
    (exists x, m = Some (rm_msg x) /\ db = rm_db x /\ r_chan s = x :: c /\ ev = VTook x) \/ (m = None /\ c = [] /\ r_chan s = [] /\ ev = VZero) ->
    loop_inv s l -> loop_inv s' (l ++ took e).
  Proof.
    intros E Hm ((k & live & Hk & El & Ht) & Hp & Hw & Hn). unfold handle in E.
    assert (Hsame : forall h', set_calls sel (took [ev]) = [] -> loop_inv (set_handler h' c (r_w s) s) (l ++ took [ev])).
    { intros h' Hset. split; [|split; [|split; [exact Hw|exact Hn]]].
      - exists k, live. split; [exact Hk|]. split; [|exact Ht]. rewrite El. unfold under_way. cbn [set_handler r_chan r_todo r_wait]. destruct Hm as [(x & _ & _ & -> & ->)|(_ & -> & -> & ->)]; [|rewrite app_nil_r; reflexivity].
        cbn [took flat_map app]. rewrite <- app_assoc. reflexivity.
      - rewrite set_calls_app, Hset, app_nil_r. exact Hp. }
    destruct (Z.eqb_spec db sel) as [Hd|Hd]; cbn [negb] in E.
    - destruct (handle_message t m (r_w s)) as [w'|w'| |] eqn:EM; [| | |discriminate].
      + injection E as <- <-. destruct Hm as [(x & -> & -> & Hc & ->)|(-> & _ & _ & _)]; [|cbn in EM; discriminate].
        cbn [took flat_map app]. unfold handle_message in EM. destruct (rm_msg x) as [| | | | |[|y args]] eqn:EX; try discriminate.
        assert (Hcmd : forall rest, rest = set_calls sel [x] -> rest = (if gostr_eqb (go_lower (msg_string y)) (bs "set") then match map msg_string args with k :: v :: _ => [CSet k v] | _ => [] end else [])).
        { intros rest ->. cbn [set_calls flat_map app]. rewrite Hd, Z.eqb_refl, EX. cbn [command]. rewrite app_nil_r. destruct (map msg_string args) as [|a [|b r]]; destruct (gostr_eqb _ _); reflexivity. }
        destruct (gostr_eqb (go_lower (msg_string y)) (bs "set")).
        * destruct args as [|a [|b r]]; try discriminate. destruct (run_call t (CSet (msg_string a) (msg_string b)) (r_w s)) as [w1 r1| |] eqn:ER; try discriminate.
          assert (w1 = w') as -> by (destruct r1 as [[? [?|]]| | | | | |]; congruence).
          split; [|split; [|split; [exact Hw|exact Hn]]].
          -- exists k, live. split; [exact Hk|]. split; [|exact Ht]. rewrite El. unfold under_way. cbn [set_handler r_chan r_todo r_wait]. rewrite Hc, <- app_assoc. reflexivity.
          -- rewrite set_calls_app, (Hcmd _ eq_refl). exact (P_set _ _ _ _ _ _ _ Hp ER).
        * specialize (Hcmd _ eq_refl). destruct (gostr_eqb _ (bs "rpush")); [destruct args; discriminate|]. destruct (gostr_eqb _ (bs "hmset")); [|discriminate]. destruct args; [discriminate|]. injection EM as <-. apply (Hsame HLoop). exact Hcmd.
      + injection E as <- <-. assert (w' = r_w s /\ set_calls sel (took [ev]) = []) as [-> Hset].
        { destruct Hm as [(x & -> & -> & Hc & ->)|(-> & _ & _ & ->)]; [|cbn in EM; injection EM as <-; auto]. cbn [took flat_map app set_calls]. rewrite Hd, Z.eqb_refl. unfold handle_message in EM. cbn [command].
          destruct (rm_msg x) as [| | | | |[|y args]]; try (injection EM as <-; auto; fail). destruct (gostr_eqb (go_lower (msg_string y)) (bs "set")) eqn:ES.
          - destruct args as [|a [|b r]]; try discriminate. destruct (run_call t _ (r_w s)) as [w1 r1| |] eqn:ER; try discriminate. exfalso. cbn in ER. unfold run_call in ER. cbn in ER.
            destruct (_ || _) in ER; [discriminate|]. cbn in ER. destruct (w_data (r_w s)); [|discriminate]. cbn in ER. injection ER as <- <-. discriminate.
          - destruct (gostr_eqb _ (bs "rpush")); [destruct args; [injection EM as <-; auto|discriminate]|]. destruct (gostr_eqb _ (bs "hmset")); [destruct args; [injection EM as <-; auto|discriminate]|]. injection EM as <-.
            split; [reflexivity|]. destruct args as [|a [|b r]]; cbn [map]; rewrite ?ES; reflexivity. }
        change [ev; VFail] with ([ev] ++ [VFail]). rewrite took_app. change (took [VFail]) with (@nil rmsg). rewrite app_nil_r. apply Hsame, Hset.
      + unfold crash in E. injection E as <- <-. cbn [took flat_map app]. rewrite app_nil_r. split; [|split; [|split; [exact Hw|exact Hn]]]; [exists k, live; auto|exact Hp].
    - injection E as <- <-. apply Hsame. destruct Hm as [(x & _ & -> & _ & ->)|(_ & _ & _ & ->)]; [|reflexivity]. cbn [took flat_map app set_calls]. destruct (Z.eqb_spec (rm_db x) sel); [congruence|reflexivity].
  Qed.
  Lemma step_inv a s s' e l : rstep sel a s = Some (s', e) -> loop_inv s l -> loop_inv s' (l ++ took e).
  Proof.
    intros E HI. unfold rstep in E. destruct (r_dead s); [discriminate|].
    assert (Hsame : forall s2, r_net s2 = r_net s -> r_chan s2 = r_chan s -> r_todo s2 = r_todo s -> r_wait s2 = r_wait s -> r_w s2 = r_w s -> r_new s2 = r_new s -> loop_inv s2 (l ++ [])).
    { intros s2 H1 H2 H3 H4 H5 H6. rewrite app_nil_r. destruct HI as ((k & live & Hk & El & Ht) & Hh & Hw & Hn). unfold loop_inv, under_way. rewrite H1, H2, H3, H4, H5, H6. split; [exists k, live; auto|auto]. }
    destruct a as [|t| | | | |].
    - (* New *)
      destruct (r_new s) eqn:EN; [|discriminate]. destruct (r_todo s) as [|m r] eqn:ET.
      + destruct (r_out s); try discriminate.
        * injection E as <- <-. cbn [took flat_map]. rewrite app_nil_r. destruct HI as ((k & live & Hk & El & Ht) & Hh & Hw & Hn). split; [|split; [exact Hh|split; [right; split; reflexivity|discriminate]]].
          exists k, live. split; [exact Hk|]. split; [|reflexivity]. rewrite El. unfold under_way. cbn [set_new r_chan r_todo r_wait]. rewrite ET. destruct Hw as [->|[Hw _]]; [reflexivity|congruence].
        * injection E as <- <-. cbn [took flat_map]. destruct HI as ((k & live & Hk & El & Ht) & Hh & Hw & Hn). rewrite app_nil_r. split; [|split; [exact Hh|split; [|exact Hn]]].
          -- exists k, live. split; [exact Hk|]. split; [|reflexivity]. rewrite El. unfold under_way. cbn [set_new r_chan r_todo r_wait]. rewrite ET. reflexivity.
          -- left. cbn [set_new r_wait]. destruct Hw as [Hw|[Hw _]]; [exact Hw|congruence].
        * injection E as <- <-. apply Hsame; reflexivity || (cbn; congruence).
        * injection E as <- <-. apply Hsame; reflexivity || (cbn; congruence).
      + destruct (room s); [|discriminate]. injection E as <- <-. cbn [took flat_map]. rewrite app_nil_r. destruct HI as ((k & live & Hk & El & Ht) & Hh & Hw & Hn).
        assert (live = []) as -> by (destruct live; [reflexivity|exfalso; rewrite ET in Ht; specialize (Ht ltac:(discriminate)); discriminate]).
        split; [|split; [exact Hh|split; [|exact Hn]]].
        * exists k, []. split; [exact Hk|]. split; [|congruence]. rewrite El. unfold under_way. cbn [set_new r_chan r_todo r_wait]. rewrite ET, <- !app_assoc. reflexivity.
        * left. cbn [set_new r_wait]. destruct Hw as [Hw|[Hw _]]; [exact Hw|congruence].
    - (* a message *)
      destruct (r_h s); [|discriminate]. destruct (r_chan s) as [|m r] eqn:EC.
      + destruct (r_closed s); [|discriminate]. eapply handle_inv; [exact E| |exact HI]. right. auto.
      + eapply handle_inv; [exact E| |exact HI]. left. exists m. auto.
    - destruct (r_h s); [|discriminate]. destruct (r_err s); [|discriminate]. injection E as <- <-. apply Hsame; reflexivity.
    - destruct (r_h s); [discriminate|]. destruct (r_err s); [discriminate|]. injection E as <- <-. apply Hsame; reflexivity.
    - (* WaitForMessage *)
      destruct HI as ((k & live & Hk & El & Ht) & Hh & Hw & Hn). destruct (r_wait s) as [| |m| | |] eqn:EW; try discriminate.
      + destruct Hw as [Hw|[Hnew Htodo]]; [discriminate|]. destruct (recv (r_net s)) as [m n|er n| |] eqn:ER; try discriminate.
        * injection E as <- <-. cbn [took flat_map]. rewrite app_nil_r. split; [|split; [exact Hh|split; [right; split; [exact Hnew|exact Htodo]|]]].
          -- exists (S k), (live ++ [m]). split; [exact (recv_n_snoc _ _ _ _ _ _ Hk ER)|]. split; [|intros _; exact Htodo]. rewrite list.filter_app, map_app, app_assoc, El. unfold under_way. cbn [set_wait r_chan r_todo r_wait]. rewrite EW, !app_nil_r, <- !app_assoc. f_equal. f_equal. f_equal.
             destruct (skipped m) eqn:ES.
             ++ rewrite filter_cons_False by congruence. rewrite filter_nil. reflexivity.
             ++ rewrite filter_cons_True by congruence. rewrite filter_nil. reflexivity.
          -- cbn [set_wait r_wait]. destruct (skipped m); discriminate.
        * injection E as <- <-. cbn [took flat_map]. rewrite app_nil_r. split; [|split; [exact Hh|split; [right; split; [exact Hnew|exact Htodo]|discriminate]]].
          exists k, live. split; [exact Hk|]. split; [|exact Ht]. rewrite El. unfold under_way. rewrite EW. reflexivity.
        * unfold crash in E. injection E as <- <-. apply Hsame; reflexivity || (cbn; congruence).
      + destruct Hw as [Hw|[Hnew Htodo]]; [discriminate|]. destruct (room s); [|discriminate]. injection E as <- <-. cbn [took flat_map]. rewrite app_nil_r. split; [|split; [exact Hh|split; [right; split; [exact Hnew|exact Htodo]|discriminate]]].
        exists k, live. split; [exact Hk|]. split; [|exact Ht]. rewrite El. unfold under_way. cbn [set_wait r_chan r_todo r_wait]. rewrite EW, Htodo. cbn [app]. rewrite !app_nil_r. reflexivity.
      + destruct Hw as [Hw|[Hnew Htodo]]; [discriminate|]. destruct (r_err s); [discriminate|]. injection E as <- <-. cbn [took flat_map]. rewrite app_nil_r. split; [|split; [exact Hh|split; [right; split; [exact Hnew|exact Htodo]|discriminate]]].
        exists k, live. split; [exact Hk|]. split; [|exact Ht]. rewrite El. unfold under_way. rewrite EW. reflexivity.
      + destruct Hw as [Hw|[Hnew Htodo]]; [discriminate|]. injection E as <- <-. cbn [took flat_map]. rewrite app_nil_r. split; [|split; [exact Hh|split; [right; split; [exact Hnew|exact Htodo]|discriminate]]].
        exists k, live. split; [exact Hk|]. split; [|exact Ht]. rewrite El. unfold under_way. rewrite EW. reflexivity.
    - destruct (r_ack s); try discriminate. injection E as <- <-. apply Hsame; reflexivity.
    - destruct (r_ack s); try discriminate. destruct (r_err s); [discriminate|]. injection E as <- <-. apply Hsame; reflexivity.
  Qed.
  Lemma exec_inv acts : forall s s' evs l, rexec sel acts s = Some (s', evs) -> loop_inv s l -> loop_inv s' (l ++ took evs).
  Proof.
    induction acts as [|a acts IH]; intros s s' evs l E HI; cbn [rexec] in E; [injection E as <- <-; rewrite app_nil_r; exact HI|].
    destruct (rstep sel a s) as [[s1 e1]|] eqn:E1; [|discriminate]. destruct (rexec sel acts s1) as [[s2 e2]|] eqn:E2; [|discriminate]. injection E as <- <-.
    rewrite took_app, app_assoc. eapply IH; [exact E2|]. eapply step_inv; eauto.
  Qed.
End inv.
Lemma started_inv sel (P : list call -> world -> Prop) range w file net : P [] w -> loop_inv sel P (fst (fst (load range 0 [file]))) net (started range w file net) [].
Proof.
  unfold started. destruct (load range 0 [file]) as [[ms o] st]. cbn [fst]. intros HP. split; [|split; [exact HP|split; [left; reflexivity|reflexivity]]].
  exists 0%nat, []. split; [reflexivity|]. split; [reflexivity|congruence].
Qed.
Definition made (w0 : world) (l : list call) (w : world) : Prop := exists h rs, map snd h = l /\ run_hist h w0 = Done w rs.
Lemma made_set w0 l w t k v w' r : made w0 l w -> run_call t (CSet k v) w = Done w' r -> made w0 (l ++ [CSet k v]) w'.
Proof. intros (h & rs & <- & Hr) E. exists (h ++ [(t, CSet k v)]), (rs ++ [r]). split; [rewrite map_app; reflexivity|apply run_hist_snoc with w; auto]. Qed.

(** ** C97: commands are applied in order, each once
    Full statement: at any time the cache is what the set commands received so far for the selected database make of it, in
    the order received; and every message received is eventually handled.
    Missing: New's own cache has no dictionaries, so that the first set ends the process; and after errors
    the handler can stop (C100). *)
(** [live]: what WaitForMessage received. Snapshot and live messages go through the handler in this order, and the
    cache is the result of the set calls among those it took. *)
Theorem C97_in_order_partial range sel w file net acts s evs : rexec sel acts (started range w file net) = Some (s, evs) ->
  exists k live h rs, recv_n k net = ROk live (r_net s) /\
    fst (fst (load range 0 [file])) ++ map (RMsg 0) (filter (fun m => skipped m = false) live) = took evs ++ under_way s /\
    map snd h = set_calls sel (took evs) /\ run_hist h w = Done (r_w s) rs.
Proof.
  intros E. destruct (exec_inv sel (made w) _ net (made_set w) acts _ _ _ [] E (started_inv sel (made w) range w file net ltac:(exists [], []; auto))) as ((k & live & Hk & El & _) & (h & rs & Hh & Hr) & _). exists k, live, h, rs. auto.
Qed.
Lemma exec_ready sel acts : forall s s' evs, rexec sel acts s = Some (s', evs) -> ready (r_w s) -> ready (r_w s').
Proof.
  induction acts as [|a acts IH]; intros s s' evs E Hr; cbn [rexec] in E; [injection E as <- <-; exact Hr|].
  destruct (rstep sel a s) as [[s1 e1]|] eqn:E1; [|discriminate]. destruct (rexec sel acts s1) as [[s2 e2]|] eqn:E2; [|discriminate]. injection E as <- <-. eapply IH; [exact E2|].
  assert (Hh : forall t db m c ev, handle sel t db m c ev s = Some (s1, e1) -> ready (r_w s1)).
  { intros t db m c ev H. unfold handle in H. destruct (negb _); [injection H as <- <-; exact Hr|]. pose proof (handle_ready t m (r_w s) Hr) as HH. destruct (handle_message t m (r_w s)); try discriminate; injection H as <- <-; assumption. }
  unfold rstep in E1. destruct (r_dead s); [discriminate|]. destruct a.
  - destruct (r_new s); [|discriminate]. destruct (r_todo s).
    + destruct (r_out s); try discriminate; injection E1 as <- <-; exact Hr.
    + destruct (room s); [|discriminate]. injection E1 as <- <-; exact Hr.
  - destruct (r_h s); [|discriminate]. destruct (r_chan s); [destruct (r_closed s); [|discriminate]|]; eapply Hh; exact E1.
  - destruct (r_h s); [|discriminate]. destruct (r_err s); [|discriminate]. injection E1 as <- <-; exact Hr.
  - destruct (r_h s); [discriminate|]. destruct (r_err s); [discriminate|]. injection E1 as <- <-; exact Hr.
  - destruct (r_wait s); try discriminate.
    + destruct (recv (r_net s)); try discriminate; injection E1 as <- <-; exact Hr.
    + destruct (room s); [|discriminate]. injection E1 as <- <-; exact Hr.
    + destruct (r_err s); [discriminate|]. injection E1 as <- <-; exact Hr.
    + injection E1 as <- <-; exact Hr.
  - destruct (r_ack s); try discriminate. injection E1 as <- <-; exact Hr.
  - destruct (r_ack s); try discriminate. destruct (r_err s); [discriminate|]. injection E1 as <- <-; exact Hr.
Qed.
(** the message does not end the process: not one of the two of C99 *)
Definition no_crash (m : rmsg) : Prop :=
  forall name args, command (Some (rm_msg m)) = Some (name, args) -> (name = bs "set" -> (2 <= length args)%nat) /\ (name = bs "rpush" -> args = []).
(** the handler can handle everything in the channel, if it reads Err after every error *)
Theorem C97_progress_partial sel s : ready (r_w s) -> r_dead s = false -> r_h s = HLoop -> r_err s = false -> Forall no_crash (r_chan s) ->
  exists acts s' evs, rexec sel acts s = Some (s', evs) /\ took evs = r_chan s /\ r_chan s' = [] /\ r_h s' = HLoop /\ r_err s' = false.
Proof.
  intros Hw Hd Hh He. remember (r_chan s) as c eqn:Ec. revert s Ec Hw Hd Hh He. induction c as [|m c IH]; intros s Ec Hw Hd Hh He Hc.
  - exists [], s, []. cbn. auto.
  - inversion Hc as [|? ? Hm Hc']; subst.
    assert (Hgo : forall w' e, ready w' -> took e = [m] -> (exists a, rexec sel a s = Some (set_handler HLoop c w' s, e)) ->
      exists acts s' evs, rexec sel acts s = Some (s', evs) /\ took evs = m :: c /\ r_chan s' = [] /\ r_h s' = HLoop /\ r_err s' = false).
    { intros w' e Hw' He' [a Ha]. destruct (IH (set_handler HLoop c w' s) eq_refl Hw' Hd eq_refl He Hc') as (acts & s' & evs & E & Et & H). exists (a ++ acts), s', (e ++ evs). rewrite rexec_app, Ha, E. split; [reflexivity|]. split; [|exact H]. rewrite took_app, He', Et. reflexivity. }
    assert (HS : rstep sel (AMsg 0) s = handle sel 0 (rm_db m) (Some (rm_msg m)) c (VTook m) s) by (unfold rstep; rewrite Hd, Hh, <- Ec; reflexivity).
    unfold handle in HS. destruct (negb (rm_db m =? sel)).
    + apply (Hgo (r_w s) [VTook m] Hw eq_refl). exists [AMsg 0]. cbn [rexec]. rewrite HS. reflexivity.
    + destruct (C99_partial 0 (Some (rm_msg m)) (r_w s) Hw Hm) as (w' & [E|E]); rewrite E in HS.
      * pose proof (handle_ready 0 (Some (rm_msg m)) (r_w s) Hw) as Hr. rewrite E in Hr. apply (Hgo w' [VTook m] Hr eq_refl). exists [AMsg 0]. cbn [rexec]. rewrite HS. reflexivity.
      * pose proof (handle_ready 0 (Some (rm_msg m)) (r_w s) Hw) as Hr. rewrite E in Hr. apply (Hgo w' [VTook m; VFail; VWarn] Hr eq_refl). exists [AMsg 0; AHand; AErrs]. cbn [rexec]. rewrite HS.
        clear -Hd He. destruct s; cbn in Hd, He; subst; reflexivity.
Qed.
(** On the cache that New makes, the first set for the selected database ends the process. *)
Lemma zero_set t t0 k v : run_call t (CSet k v) (zero_world t0) = EPanic.
Proof. reflexivity. Qed.
Theorem C97_refuted : exists file acts s evs, fst (fst (load range_of 0 [file])) = [RMsg 0 (convert_to_message [bs "set"; bs "k"; bs "v"])] /\
  rexec 0 acts (started range_of (zero_world 0) file (new_rd [])) = Some (s, evs) /\ r_dead s = true /\ took evs = [].
Proof.
  exists (rdb_file ver9 [IKey (SRaw (bs "k")) (RdbSpec.VStr (SRaw (bs "v")))] []), [ANew; AMsg 0].
  assert (H : match rexec 0 [ANew; AMsg 0] (started range_of (zero_world 0) (rdb_file ver9 [IKey (SRaw (bs "k")) (RdbSpec.VStr (SRaw (bs "v")))] []) (new_rd [])) with
    Some (s, evs) => r_dead s = true /\ took evs = [] | None => False end) by (vm_compute; auto).
  destruct (rexec _ _ _) as [[s evs]|]; [|contradiction]. exists s, evs. split; [vm_compute; reflexivity|]. split; [reflexivity|exact H].
Qed.
Example C97_ex : let file := rdb_file ver9 [IKey (SRaw (bs "k")) (RdbSpec.VStr (SRaw (bs "v")))] [] in let net := new_rd [serialize (convert_to_message [bs "SET"; bs "k"; bs "w"])] in
  match rexec 0 [ANew; ANew; AWait; AMsg 0; AWait; AMsg 0] (started range_of (new_world 0) file net) with
  | Some (s, evs) => CacheSpec.answer 0 (CGet (bs "k")) (r_w s) = Some (RStr (bs "w", None)) /\ length (took evs) = 2%nat /\ under_way s = [] | None => False end.
Proof. vm_compute. auto. Qed.

(** ** C100: errors do not stop replication
    Full statement: after any messages that cannot be applied, later messages are still handled.
    Missing: an error that finds Err full blocks the handler, which is the only reader of Err, forever. *)
Definition stuck (s : rs) : Prop := r_h s = HSend /\ r_err s = true.
Lemma stuck_step sel a s s' e : stuck s -> rstep sel a s = Some (s', e) -> stuck s' /\ took e = [] /\ VWarn ∉ e /\ r_w s' = r_w s.
Proof.
  intros [Hh He] E. unfold rstep in E. destruct (r_dead s); [discriminate|]. rewrite Hh, ?He in E.
  assert (Hok : forall s2 e2, Some (s2, e2) = Some (s', e) -> r_h s2 = HSend -> r_err s2 = true -> took e2 = [] -> VWarn ∉ e2 -> r_w s2 = r_w s -> stuck s' /\ took e = [] /\ VWarn ∉ e /\ r_w s' = r_w s).
  { intros s2 e2 H H1 H2 H3 H4 H5. injection H as <- <-. repeat split; auto. }
  assert (N1 : VWarn ∉ ([] : list revent)) by apply not_elem_of_nil.
  assert (N2 : forall b, VWarn ∉ [VNew b]) by (intros b H; apply elem_of_list_singleton in H; discriminate).
  assert (N3 : VWarn ∉ [VCrash]) by (intros H; apply elem_of_list_singleton in H; discriminate).
  destruct a; try discriminate.
  - destruct (r_new s); [|discriminate]. destruct (r_todo s).
    + destruct (r_out s); try discriminate; (eapply Hok; [exact E| | | | |]; cbn; auto).
    + destruct (room s); [|discriminate]. eapply Hok; [exact E| | | | |]; cbn; auto.
  - destruct (r_wait s); try discriminate.
    + destruct (recv (r_net s)); try discriminate; (eapply Hok; [exact E| | | | |]; cbn; auto).
    + destruct (room s); [|discriminate]. eapply Hok; [exact E| | | | |]; cbn; auto.
    + eapply Hok; [exact E| | | | |]; cbn; auto.
  - destruct (r_ack s); try discriminate. eapply Hok; [exact E| | | | |]; cbn; auto.
  - destruct (r_ack s); discriminate.
Qed.
Theorem C100_forever_refuted sel acts : forall s s' evs, stuck s -> rexec sel acts s = Some (s', evs) -> stuck s' /\ took evs = [] /\ VWarn ∉ evs /\ r_w s' = r_w s.
Proof.
  induction acts as [|a acts IH]; intros s s' evs Hs E; cbn [rexec] in E; [injection E as <- <-; repeat split; [apply Hs|apply Hs|apply not_elem_of_nil]|].
  destruct (rstep sel a s) as [[s1 e1]|] eqn:E1; [|discriminate]. destruct (rexec sel acts s1) as [[s2 e2]|] eqn:E2; [|discriminate]. injection E as <- <-.
  destruct (stuck_step _ _ _ _ _ Hs E1) as (H1 & H2 & H3 & H4). destruct (IH _ _ _ H1 E2) as (H5 & H6 & H7 & H8). split; [exact H5|]. rewrite took_app, H2, H6. split; [reflexivity|]. split; [|congruence].
  intros H. apply elem_of_app in H as [H|H]; auto.
Qed.
(** it happens with two sets in the snapshot, and the string key after them is never stored; nothing else is needed *)
Theorem C100_refuted : exists file acts s evs, rexec 0 acts (started range_of (new_world 0) file (new_rd [])) = Some (s, evs) /\ stuck s /\ under_way s = [RMsg 0 (convert_to_message [bs "set"; bs "k"; bs "v"])].
Proof.
  set (file := rdb_file ver9 [IKey (SRaw (bs "s")) (VSet [SRaw (bs "x")]); IKey (SRaw (bs "t")) (VSet [SRaw (bs "x")]); IKey (SRaw (bs "k")) (RdbSpec.VStr (SRaw (bs "v")))] []).
  exists file, [ANew; ANew; ANew; AMsg 0; AHand; AMsg 0].
  assert (H : match rexec 0 [ANew; ANew; ANew; AMsg 0; AHand; AMsg 0] (started range_of (new_world 0) file (new_rd [])) with
    Some (s, evs) => r_h s = HSend /\ r_err s = true /\ under_way s = [RMsg 0 (convert_to_message [bs "set"; bs "k"; bs "v"])] | None => False end) by (vm_compute; auto).
  destruct (rexec _ _ _) as [[s evs]|]; [|contradiction]. exists s, evs. split; [reflexivity|]. destruct H as (H1 & H2 & H3). split; [split; assumption|exact H3].
Qed.
(** one error at a time is harmless: when Err is empty, the handler is back in its loop, with Err empty, after at most three steps *)
Theorem C100_partial sel t m c s : ready (r_w s) -> r_dead s = false -> r_h s = HLoop -> r_err s = false -> r_chan s = m :: c -> no_crash m ->
  exists acts s' evs, (length acts <= 3)%nat /\ rexec sel (AMsg t :: acts) s = Some (s', evs) /\ took evs = [m] /\ r_chan s' = c /\ r_h s' = HLoop /\ r_err s' = false /\ r_dead s' = false.
Proof.
  intros Hw Hd Hh He Hc Hm. assert (HS : rstep sel (AMsg t) s = handle sel t (rm_db m) (Some (rm_msg m)) c (VTook m) s) by (unfold rstep; rewrite Hd, Hh, Hc; reflexivity).
  unfold handle in HS. destruct (negb (rm_db m =? sel)).
  - exists []. eexists _, _. split; [cbn; lia|]. cbn [rexec]. rewrite HS. split; [reflexivity|]. cbn. auto.
  - destruct (C99_partial t (Some (rm_msg m)) (r_w s) Hw Hm) as (w' & [E|E]); rewrite E in HS.
    + exists []. eexists _, _. split; [cbn; lia|]. cbn [rexec]. rewrite HS. split; [reflexivity|]. cbn. auto.
    + exists [AHand; AErrs]. eexists _, _. split; [cbn; lia|]. cbn [rexec]. rewrite HS. clear -Hd He. destruct s; cbn in Hd, He; subst. split; [reflexivity|]. cbn. auto.
Qed.
Example C100_ex : no_crash (RMsg 0 (convert_to_message [bs "sAdd"; bs "s"; bs "x"])).
Proof. intros name args E. cbn in E. injection E as <- <-. split; intros H; discriminate H. Qed.

(** ** C101: only the selected database is mirrored
    Full statement: a command for another database than the selected one is not applied, and one for the selected is.
    Missing: the live stream, every message of which counts as one for database 0 whatever was selected. *)
Theorem C101_partial range sel w file net acts s evs : rexec sel acts (started range w file net) = Some (s, evs) -> (forall m, m ∈ took evs -> rm_db m <> sel) -> r_w s = w.
Proof.
  intros E Hm. destruct (C97_in_order_partial _ _ _ _ _ _ _ _ E) as (k & live & h & rs & _ & _ & Hh & Hr).
  assert (Hset : set_calls sel (took evs) = []).
  { clear -Hm. induction (took evs) as [|m l IH]; [reflexivity|]. cbn [set_calls flat_map]. fold (set_calls sel l). rewrite IH by (intros; apply Hm; right; auto). destruct (Z.eqb_spec (rm_db m) sel); [|reflexivity]. elim (Hm m); [left|assumption]. }
  rewrite Hset in Hh. destruct h; [|discriminate]. cbn in Hr. congruence.
Qed.
(** for any selected database but 0, no live message is applied *)
Theorem C101_live_refuted range sel w file net acts s evs : sel <> 0 -> fst (fst (load range 0 [file])) = [] -> rexec sel acts (started range w file net) = Some (s, evs) -> r_w s = w.
Proof.
  intros Hs Hl E. apply (C101_partial _ _ _ _ _ _ _ _ E). destruct (C97_in_order_partial _ _ _ _ _ _ _ _ E) as (k & live & h & rs & _ & El & _). rewrite Hl in El. cbn [app] in El.
  intros m Hm. assert (Hi : m ∈ took evs ++ under_way s) by (apply elem_of_app; auto). rewrite <- El in Hi. apply elem_of_list_fmap in Hi as (x & -> & _). cbn. congruence.
Qed.
(** and a command for database 1 is applied to the mirror of database 0 *)
Theorem C101_refuted : exists net acts, net = serialize (convert_to_message [bs "SELECT"; bs "1"]) ++ serialize (convert_to_message [bs "SET"; bs "k"; bs "v"]) /\
  match rexec 0 acts (started range_of (new_world 0) (rdb_file ver9 [] []) (new_rd [net])) with
  | Some (s, _) => CacheSpec.answer 0 (CGet (bs "k")) (r_w s) = Some (RStr (bs "v", None)) | None => False end.
Proof. eexists _, [ANew; AWait; AWait; AMsg 0; AHand; AErrs; AWait; AWait; AMsg 0]. split; [reflexivity|]. vm_compute. reflexivity. Qed.
Example C101_ex : let file := rdb_file ver9 [ISelect 1; IKey (SRaw (bs "k")) (RdbSpec.VStr (SRaw (bs "v")))] [] in
  match rexec 0 [ANew; AMsg 0] (started range_of (new_world 0) file (new_rd [])) with Some (s, evs) => took evs = [RMsg 1 (convert_to_message [bs "set"; bs "k"; bs "v"])] | None => False end.
Proof. vm_compute. reflexivity. Qed.

(** ** C102: a client from New answers reads
    Full statement: Get on a client returned by New returns (a value or an error) for every key at any time.
    Missing: it never does, as the cache has no dictionaries. *)
Theorem C102_refuted range sel t0 file net acts s evs t k : rexec sel acts (started range (zero_world t0) file net) = Some (s, evs) -> run_call t (CGet k) (r_w s) = EPanic.
Proof.
  intros E. destruct (C97_in_order_partial _ _ _ _ _ _ _ _ E) as (n & live & h & rs & _ & _ & Hh & Hr).
  assert (r_w s = zero_world t0) as ->; [|reflexivity]. destruct h as [|[t1 c] h]; [cbn in Hr; congruence|]. exfalso.
  assert (exists a b, c = CSet a b) as (a & b & ->).
  { assert (Hc : c ∈ set_calls sel (took evs)) by (rewrite <- Hh; left). clear -Hc. induction (took evs) as [|m l IH]; [inversion Hc|]. cbn [set_calls flat_map] in Hc. fold (set_calls sel l) in Hc. apply elem_of_app in Hc as [Hc|Hc]; [|auto].
    destruct (_ =? _); [|inversion Hc]. destruct (command _) as [[nm [|a [|b r]]]|]; try (inversion Hc; fail). destruct (gostr_eqb _ _); [|inversion Hc]. apply elem_of_list_singleton in Hc. eauto. }
  cbn [run_hist] in Hr. unfold run_call in Hr. cbn in Hr. discriminate.
Qed.
(** with a cache from cache.New instead, it would *)
Theorem C102_partial range sel t0 file net acts s evs t k : rexec sel acts (started range (new_world t0) file net) = Some (s, evs) ->
  exists w' r, run_call t (CGet k) (r_w s) = Done w' (RStr r).
Proof.
  intros E. assert (Hr : ready (r_w s)).
  { eapply exec_ready; [exact E|]. unfold started. destruct (load range 0 [file]) as [[? ?] ?]. apply ready_new. }
  pose proof (refine (CGet k) t (r_w s) Hr) as H. destruct (abs (CGet k) t (view (r_w s))) as [[V' r]|] eqn:EA.
  - destruct H as (w' & R & _). exists w'. cbn [abs keys_of abs1] in EA. injection EA as _ <-. eauto.
  - cbn [abs keys_of abs1] in EA. discriminate.
Qed.
Example C102_ex : match rexec 0 [ANew] (started range_of (zero_world 0) (rdb_file ver9 [] []) (new_rd [])) with Some (s, evs) => evs = [VNew true] | None => False end.
Proof. vm_compute. reflexivity. Qed.

(** ** C103: only pings are skipped
    Full statement: every live message other than a PING command is forwarded to the handler.
    Missing: messages whose text starts with "ping" in any other way. *)
Lemma has_prefix_iff p : forall s, has_prefix s p = true <-> exists r, s = p ++ r.
Proof.
  induction p as [|a p IH]; intros s; [split; [intros _; exists s; reflexivity|destruct s; reflexivity]|]. destruct s as [|b s].
  - split; intros H; [discriminate H|]. destruct H as (r & E). discriminate E.
  - cbn [has_prefix app]. rewrite andb_true_iff, IH, byte_eqb_eq. split.
    + intros [-> (r & ->)]. eauto.
    + intros (r & E). injection E as -> ->. eauto.
Qed.
Theorem C103_exact_partial range sel w file net acts s evs : rexec sel acts (started range w file net) = Some (s, evs) ->
  exists k live, recv_n k net = ROk live (r_net s) /\
    fst (fst (load range 0 [file])) ++ map (RMsg 0) (filter (fun m => skipped m = false) live) = took evs ++ under_way s /\
    forall m, skipped m = true <-> exists r, go_lower (msg_string m) = bs "ping" ++ r.
Proof. intros E. destruct (C97_in_order_partial _ _ _ _ _ _ _ _ E) as (k & live & h & rs & H1 & H2 & _). exists k, live. split; [exact H1|]. split; [exact H2|]. intros m. apply has_prefix_iff. Qed.
Theorem C103_refuted : exists m, m = convert_to_message [bs "pingcounter.incr"; bs "k"] /\ skipped m = true /\
  match rexec 0 [ANew; AWait; AWait; AWait; AWait] (started range_of (new_world 0) (rdb_file ver9 [] []) (new_rd [serialize m])) with Some (s, evs) => took evs = [] /\ under_way s = [] /\ r_wait s = WDone | None => False end.
Proof. eexists. split; [reflexivity|]. split; [reflexivity|]. vm_compute. auto. Qed.
Example C103_ex : skipped (convert_to_message [bs "PING"]) = true /\ skipped (MSimple (bs "Ping")) = true /\ skipped (convert_to_message [bs "SET"; bs "ping"; bs "v"]) = false.
Proof. repeat split; reflexivity. Qed.

(** ** C111: the handshake saves the snapshot *)
Lemma recv_pong cs rest : concat cs = bs "+PONG" ++ crlf ++ rest -> exists s, recv (new_rd cs) = ROk (MSimple (bs "PONG")) s /\ bytes_left s = rest /\ wf s.
Proof.
  intros E. apply read_steady.
  - split; [|cbn; lia]. unfold one_line. repeat constructor; intros H; repeat (apply elem_of_cons in H as [H|H]; [discriminate H|]); inversion H.
  - unfold bytes_left. cbn [new_rd r_buf r_src app]. rewrite E. reflexivity.
  - unfold wf. cbn. lia.
  - unfold bytes_left. cbn [new_rd r_buf r_src app]. rewrite E, !app_length. cbn. lia.
Qed.
Theorem C111_handshake cs file rest : int64 (zlen file) -> concat cs = bs "+PONG" ++ crlf ++ bs "$" ++ itoa (zlen file) ++ crlf ++ file ++ rest ->
  exists net, sync_with_redis (new_rd cs) = (send (convert_to_message [bs "ping"]) ++ send (convert_to_message [bs "SYNC"]), Some file, SOk net) /\ bytes_left net = rest.
Proof.
  intros Hf E. destruct (recv_pong _ _ E) as (s1 & R1 & E1 & W1).
  destruct (rww_bulk s1 (zlen file) (file ++ rest) E1 Hf W1) as (s2 & E2 & W2 & R2). destruct (copy_bytes_all file s2 rest [] E2 W2) as (net & R3 & E3 & _).
    exists net. split; [|exact E3]. unfold sync_with_redis. rewrite R1. replace (gostr_eqb (msg_string (MSimple (bs "PONG"))) (bs "PONG")) with true by reflexivity.
    replace (Z.to_nat (zlen file)) with (length file) in R2 by (unfold zlen; lia). rewrite R2, R3. reflexivity.
Qed.
Example C111_ex : match sync_with_redis (new_rd [bs "+PO"; bs "NG" ++ crlf; bs "$3" ++ crlf ++ bs "ab"; bs "cREST"]) with (out, file, SOk net) => out = bs "*1" ++ crlf ++ bs "$4" ++ crlf ++ bs "ping" ++ crlf ++ bs "*1" ++ crlf ++ bs "$4" ++ crlf ++ bs "SYNC" ++ crlf /\ file = Some (bs "abc") /\ bytes_left net = bs "REST" | _ => False end.
Proof. vm_compute. auto. Qed.

(** ** C112: a refused SYNC is an error
    Full statement: if the master answers PING or SYNC with anything but PONG and a snapshot, SyncWithRedis returns an error.
    Missing: an error reply to SYNC, whose text is saved as the snapshot. (New fails all the same, see below.) *)
Theorem C112_ping_partial s m s1 : recv s = ROk m s1 -> msg_string m <> bs "PONG" -> exists out, sync_with_redis s = (out, None, SErr).
Proof. intros R Hm. unfold sync_with_redis. rewrite R. unfold gostr_eqb. rewrite bool_decide_eq_false_2 by exact Hm. eauto. Qed.
Theorem C112_truncated_partial cs n p : int64 n -> zlen p < n -> concat cs = bs "+PONG" ++ crlf ++ bs "$" ++ itoa n ++ crlf ++ p ->
  exists out, sync_with_redis (new_rd cs) = (out, Some p, SErr).
Proof.
  intros Hn Hp E. destruct (recv_pong _ _ E) as (s1 & R1 & E1 & W1).
  destruct (rww_bulk s1 n p E1 Hn W1) as (s2 & E2 & W2 & R2). destruct (copy_bytes_cut p (Z.to_nat n) s2 [] E2 ltac:(unfold zlen in Hp; lia) W2) as (s' & R3).
    unfold sync_with_redis. rewrite R1. replace (gostr_eqb (msg_string (MSimple (bs "PONG"))) (bs "PONG")) with true by reflexivity. rewrite R2, R3. eauto.
Qed.
Theorem C112_refuted : exists reply, reply = bs "-NOMASTERLINK Can't SYNC while not connected with my master" ++ crlf /\
  match sync_with_redis (new_rd [bs "+PONG" ++ crlf ++ reply]) with (_, file, SOk net) => file = Some (bs "NOMASTERLINK Can't SYNC while not connected with my master") | _ => False end.
Proof. eexists. split; [reflexivity|]. vm_compute. reflexivity. Qed.
(** What every other reply to SYNC makes: the text of a simple string, an error or an integer is saved as the snapshot, … *)
Theorem C112_line_refuted cs p l rest : p ∈ bs "+-:" -> LF ∉ l -> (length l + 1 < bufsize)%nat -> concat cs = bs "+PONG" ++ crlf ++ p :: l ++ crlf ++ rest ->
  exists out net, sync_with_redis (new_rd cs) = (out, Some l, SOk net) /\ bytes_left net = rest.
Proof.
  intros Hp Hl Hn E. destruct (recv_pong _ _ E) as (s1 & R1 & E1 & W1). destruct (read_byte_app _ _ _ W1 E1) as (s2 & R2 & E2 & W2).
  destruct (read_line_crlf s2 l rest E2 Hl Hn W2) as (s3 & R3 & E3 & _).
  unfold sync_with_redis. rewrite R1. replace (gostr_eqb (msg_string (MSimple (bs "PONG"))) (bs "PONG")) with true by reflexivity.
  unfold read_with_writer. rewrite R2.
  repeat (apply elem_of_cons in Hp as [->|Hp]; [change (Byte.eqb _ (z2b 36)) with false; cbn iota; match goal with |- context [if ?b then _ else _] => change b with true end; cbn iota; rewrite R3; eauto|]).
  apply elem_of_nil in Hp as [].
Qed.
(** … an array makes an empty snapshot and leaves its elements to be read as messages, … *)
Theorem C112_array_refuted cs n rest : int64 n -> concat cs = bs "+PONG" ++ crlf ++ bs "*" ++ itoa n ++ crlf ++ rest ->
  exists out net, sync_with_redis (new_rd cs) = (out, Some [], SOk net) /\ bytes_left net = rest.
Proof.
  intros Hn E. destruct (recv_pong _ _ E) as (s1 & R1 & E1 & W1). destruct (read_byte_app _ _ _ W1 E1) as (s2 & R2 & E2 & W2).
  destruct (read_num_any s2 n rest E2 Hn W2) as (s3 & R3 & E3 & _).
  unfold sync_with_redis. rewrite R1. replace (gostr_eqb (msg_string (MSimple (bs "PONG"))) (bs "PONG")) with true by reflexivity.
  unfold read_with_writer. rewrite R2. change (Byte.eqb _ (z2b 36)) with false. cbn iota. match goal with |- context [if ?b then _ else _] => change b with false end. cbn iota.
  change (Byte.eqb _ (z2b 42)) with true. cbn iota. rewrite R3. eauto.
Qed.
(** … and anything that is no reply at all, or no reply, is an error. *)
Theorem C112_garbage_partial cs rest : match rest with b :: _ => b ∉ bs "$+-:*" | [] => True end -> concat cs = bs "+PONG" ++ crlf ++ rest ->
  exists out, sync_with_redis (new_rd cs) = (out, Some [], SErr).
Proof.
  intros Hb E. destruct (recv_pong _ _ E) as (s1 & R1 & E1 & W1). unfold sync_with_redis. rewrite R1. replace (gostr_eqb (msg_string (MSimple (bs "PONG"))) (bs "PONG")) with true by reflexivity.
  unfold read_with_writer. destruct rest as [|b rest].
  - destruct (byte_none s1 E1 W1) as (s2 & ->). eauto.
  - destruct (read_byte_app _ _ _ W1 E1) as (s2 & -> & E2 & W2).
    assert (Hx : forall c, c ∈ bs "$+-:*" -> Byte.eqb b c = false).
    { intros c Hc. destruct (Byte.eqb b c) eqn:Eb; [|reflexivity]. apply Byte.byte_dec_bl in Eb. subst c. destruct (Hb Hc). }
    rewrite !Hx by (vm_compute; repeat constructor). cbn [orb]. eauto.
Qed.
(** A text of printable characters is never loaded with success, so that New still returns an error or the process ends. *)
Definition printable (b : byte) : Prop := 32 <= b2z b <= 126.
Lemma printable_string s : wf s -> Forall printable (bytes_left s) -> match load_string s with LOk _ s' => wf s' /\ Forall printable (bytes_left s') | LFuel => False | _ => True end.
Proof.
  intros W Hp. unfold load_string, load_len. pose proof (read_byte_spec s W) as H. destruct (bytes_left s) as [|b r] eqn:E; [destruct H as (s' & -> & _); exact I|]. destruct H as (s1 & -> & E1 & W1).
  apply Forall_cons_1 in Hp as [Hb Hr]. cbn [lift lbind]. unfold printable in Hb. rewrite low_bits, top_bits by lia.
  assert (Hbody : forall n s2, wf s2 -> Forall printable (bytes_left s2) -> match lbind (lift (read_some n s2)) (fun d s3 => LOk (padded n d) s3) with LOk _ s' => wf s' /\ Forall printable (bytes_left s') | LFuel => False | _ => True end).
  { intros n s2 W2 H2. pose proof (read_some_spec n s2 W2) as H. destruct (read_some n s2) as [d s3|e s3| |]; cbn; auto. destruct H as (E3 & _ & W3). split; [exact W3|]. rewrite E3 in H2. apply Forall_app in H2 as [_ H2]. exact H2. }
  destruct (Z.eqb_spec (b2z b / 64) 3) as [E3|_]; [exfalso; pose proof (Z.div_mod (b2z b) 64 ltac:(lia)); pose proof (Z.mod_pos_bound (b2z b) 64 ltac:(lia)); lia|].
  destruct (Z.eqb_spec (b2z b / 64) 0); [cbn [lbind]; apply Hbody; [auto|rewrite E1; exact Hr]|].
  destruct (Z.eqb_spec (b2z b / 64) 1) as [_|N]; [|exfalso; pose proof (Z.div_mod (b2z b) 64 ltac:(lia)); pose proof (Z.mod_pos_bound (b2z b) 64 ltac:(lia)); lia].
  pose proof (read_byte_spec s1 W1) as H. rewrite E1 in H. destruct r as [|b2 r]; [destruct H as (s' & -> & _); exact I|]. destruct H as (s2 & -> & E2 & W2). cbn [lbind]. apply Forall_cons_1 in Hr as [_ Hr]. apply Hbody; [auto|rewrite E2; assumption].
Qed.
Lemma printable_loop range fuel : forall st s, wf s -> Forall printable (bytes_left s) -> snd (fst (load_loop range fuel st s)) <> ONil.
Proof.
  induction fuel as [|fuel IH]; intros st s W Hp; [discriminate|]. cbn [load_loop]. unfold load_opcode. pose proof (read_byte_spec s W) as H. destruct (bytes_left s) as [|b r] eqn:E; [destruct H as (s' & -> & _); discriminate|]. destruct H as (s1 & -> & E1 & W1).
  apply Forall_cons_1 in Hp as [Hb Hr]. cbn [lift lbind]. unfold printable in Hb. unfold load_item.
  repeat match goal with |- context [b2z b =? ?n] => destruct (Z.eqb_spec (b2z b) n); [lia|] end.
  pose proof (printable_string s1 W1 ltac:(rewrite E1; exact Hr)) as HS. destruct (load_string s1) as [key s2| | | |]; cbn [lbind]; try discriminate. destruct HS as [W2 H2].
  destruct (gostr_eqb key []); [discriminate|]. unfold load_value. repeat match goal with |- context [b2z b =? ?n] => destruct (Z.eqb_spec (b2z b) n); [lia|] end. cbn [lbind orb negb].
  specialize (IH (Lst (l_db st) (l_id st) (l_off st) 0) s2 W2 H2). destruct (load_loop range fuel _ s2) as [[ms o] st']. exact IH.
Qed.
Theorem C112_text_never_loads_partial range db text : Forall printable text -> snd (fst (load range db [text])) <> ONil.
Proof.
  intros Hp. unfold load. assert (W : wf (new_rd [text])) by (unfold wf; cbn; lia). pose proof (read_some_spec 9 _ W) as H. destruct (read_some 9 (new_rd [text])) as [d s|e s| |]; try discriminate. destruct H as (E & _ & W').
  unfold bytes_left at 1 in E. cbn in E. rewrite app_nil_r in E. apply printable_loop; [exact W'|]. rewrite E in Hp. apply Forall_app in Hp as [_ Hp]. exact Hp.
Qed.
Example C112_ex : let '(_, o, _) := load range_of 0 [bs "NOMASTERLINK Can't SYNC while not connected with my master"] in o = OErr \/ o = OPanic.
Proof. vm_compute. auto. Qed.

(** ** C113: the cache mirrors snapshot and stream
    Full statement: whenever the client has handled everything received, the cache holds what setting the snapshot's string keys of
    database 0 in file order, and then executing the live set commands in order, makes of it.
    Missing: New's own cache (C97, C102), and snapshots outside the sizes of C83. *)
Theorem C113_mirror_partial range version l sum cs rest w acts s evs : is_range range -> length version = 9%nat -> Forall string_item l -> Forall item_small l -> unsplit l -> int64 (zlen (rdb_file version l sum)) ->
  concat cs = bs "+PONG" ++ crlf ++ bs "$" ++ itoa (zlen (rdb_file version l sum)) ++ crlf ++ rdb_file version l sum ++ rest ->
  exists out file net, sync_with_redis (new_rd cs) = (out, Some file, SOk net) /\ bytes_left net = rest /\
    (rexec 0 acts (started range w file net) = Some (s, evs) -> under_way s = [] ->
     exists k live h rs, recv_n k net = ROk live (r_net s) /\ run_hist h w = Done (r_w s) rs /\
       map snd h = map (fun x => CSet (sk_key x) (match sk_val x with RdbSpec.VStr v => rstr_text v | _ => [] end)) (filter (fun x => sk_db x = 0) (snapshot 0 None l)) ++
                   set_calls 0 (map (RMsg 0) (filter (fun m => skipped m = false) live))).
Proof.
  intros Hr Hv Hs Hl Hu Hi E. destruct (C111_handshake cs _ rest Hi E) as (net & R & En). do 2 eexists. exists net. split; [exact R|]. split; [exact En|]. intros EX Hu'.
  destruct (C97_in_order_partial _ _ _ _ _ _ _ _ EX) as (k & live & h & rs & Hk & El & Hh & Hrun). exists k, live, h, rs. split; [exact Hk|]. split; [exact Hrun|].
  rewrite Hu', app_nil_r in El. rewrite Hh, <- El, set_calls_app. f_equal. pose proof (C83_partial range version l sum 0 Hr Hv Hs Hl Hu) as HL. destruct (load range 0 _) as [[ms o] st]. destruct HL as [-> _]. cbn [fst]. clear.
  induction (snapshot 0 None l) as [|x r IH]; [reflexivity|]. cbn [map]. change (set_of x :: map set_of r) with ([set_of x] ++ map set_of r). rewrite set_calls_app, IH.
  cbn [set_calls flat_map set_of rm_db rm_msg]. destruct (Z.eqb_spec (sk_db x) 0) as [Hx|Hx].
  - rewrite filter_cons_True by exact Hx. reflexivity.
  - rewrite filter_cons_False by exact Hx. reflexivity.
Qed.
Theorem C113_refuted : exists cs, match sync_with_redis (new_rd cs) with (_, Some file, SOk net) =>
    match rexec 0 [ANew; AMsg 0] (started range_of (zero_world 0) file net) with Some (s, evs) => r_dead s = true | None => False end | _ => False end.
Proof.
  exists [bs "+PONG" ++ crlf; bs "$15" ++ crlf ++ rdb_file ver9 [IKey (SRaw (bs "k")) (RdbSpec.VStr (SRaw (bs "v")))] []]. vm_compute. reflexivity.
Qed.
Example C113_ex : match sync_with_redis (new_rd [bs "+PONG" ++ crlf; bs "$15" ++ crlf ++ rdb_file ver9 [IKey (SRaw (bs "k")) (RdbSpec.VStr (SRaw (bs "v")))] []]) with (_, Some file, SOk net) =>
    match rexec 0 [ANew; AMsg 0] (started range_of (new_world 0) file net) with Some (s, evs) => under_way s = [] /\ CacheSpec.answer 0 (CGet (bs "k")) (r_w s) = Some (RStr (bs "v", None)) | None => False end | _ => False end.
Proof. vm_compute. auto. Qed.

(** ** C114: after the connection ends the handler rests
    Full statement: when the master's stream has ended and everything received was handled, the handler does nothing more.
    Missing: it receives nil messages from the closed channel without end. *)
Theorem C114_refuted sel s n : sel <> 0 -> r_dead s = false -> r_h s = HLoop -> r_closed s = true -> r_chan s = [] ->
  exists acts, length acts = n /\ rexec sel acts s = Some (s, replicate n VZero).
Proof.
  intros Hs Hd Hh Hc He. exists (replicate n (AMsg 0)). split; [apply replicate_length|]. induction n as [|n IH]; [reflexivity|]. cbn [replicate rexec].
  assert (HS : rstep sel (AMsg 0) s = Some (s, [VZero])).
  { unfold rstep. rewrite Hd, Hh, He, Hc. unfold handle. destruct (Z.eqb_spec 0 sel); [congruence|]. cbn [negb]. destruct s; cbn in *; subst; reflexivity. }
  rewrite HS, IH. reflexivity.
Qed.
(** for database 0 each of them is an error, until the handler is stuck (C100) *)
Theorem C114_zero_refuted : exists acts s evs, rexec 0 acts (started range_of (new_world 0) (rdb_file ver9 [] []) (new_rd [])) = Some (s, evs) /\ stuck s.
Proof.
  exists [ANew; AWait; AWait; AWait; AMsg 0].
  assert (H : match rexec 0 [ANew; AWait; AWait; AWait; AMsg 0] (started range_of (new_world 0) (rdb_file ver9 [] []) (new_rd [])) with Some (s, evs) => r_h s = HSend /\ r_err s = true | None => False end) by (vm_compute; auto).
  destruct (rexec _ _ _) as [[s evs]|]; [|contradiction]. exists s, evs. split; [reflexivity|exact H].
Qed.
(** before it ends, the handler rests when there is nothing to do *)
Theorem C114_partial sel s t : r_closed s = false -> r_chan s = [] -> rstep sel (AMsg t) s = None.
Proof. intros Hc He. unfold rstep. destruct (r_dead s); [reflexivity|]. rewrite He, Hc. destruct (r_h s); reflexivity. Qed.
Example C114_ex : match rexec 1 [ANew; AWait; AWait; AWait; AErrs] (started range_of (new_world 0) (rdb_file ver9 [] []) (new_rd [])) with Some (s, evs) => r_dead s = false /\ r_h s = HLoop /\ r_closed s = true /\ r_chan s = [] | None => False end.
Proof. vm_compute. auto. Qed.

(** ** C115: the queue is bounded *)
Lemma rexec_inv sel (I : rs -> list ract -> list revent -> Prop) :
  (forall s l e a s' e', I s l e -> rstep sel a s = Some (s', e') -> I s' (l ++ [a]) (e ++ e')) ->
  forall acts s s' evs l e, I s l e -> rexec sel acts s = Some (s', evs) -> I s' (l ++ acts) (e ++ evs).
Proof.
  intros Hstep. induction acts as [|a acts IH]; intros s s' evs l e HI E; cbn [rexec] in E; [injection E as <- <-; rewrite !app_nil_r; exact HI|].
  destruct (rstep sel a s) as [[s1 e1]|] eqn:E1; [|discriminate]. destruct (rexec sel acts s1) as [[s2 e2]|] eqn:E2; [|discriminate]. injection E as <- <-.
  specialize (IH s1 s2 e2 (l ++ [a]) (e ++ e1) (Hstep _ _ _ _ _ _ HI E1) E2). rewrite <- !app_assoc in IH. exact IH.
Qed.
(** one goal per way of making a step *)
Ltac step_cases E :=
  unfold rstep, handle, crash in E;
  repeat match type of E with
         | None = Some _ => discriminate E
         | (match ?x with _ => _ end) = Some _ => destruct x eqn:?
         end; try discriminate E; injection E as <- <-; cbn [set_handler set_err set_wait set_ack set_new r_todo r_out r_new r_wait r_net r_ack r_chan r_closed r_err r_h r_dead r_w].
(** C114, what holds: until WaitForMessage has seen the end of the stream, the handler rests when the queue is empty. *)
Theorem C114_connected_partial range sel w file net acts s evs t :
  rexec sel acts (started range w file net) = Some (s, evs) -> r_wait s <> WDone -> r_chan s = [] -> rstep sel (AMsg t) s = None.
Proof.
  intros E Hw He. apply C114_partial; [|exact He].
  refine (proj2 (rexec_inv sel (fun s _ _ => (r_new s = NLoad -> r_wait s = WOff) /\ (r_wait s <> WDone -> r_closed s = false)) _ acts _ _ _ [] [] _ E) Hw); clear.
  - intros s _ _ a s' e' [HN HI] E. step_cases E; (split; [try exact HN; try (intros H; specialize (HN H); congruence); congruence|]); try exact HI; intros H; try congruence; first [exact (HI H)|discriminate (HI H)|exact (HI ltac:(discriminate))|exact (HI ltac:(rewrite HN by (assumption || reflexivity); discriminate))].
  - unfold started. destruct (load range 0 [file]) as [[ms o] st]. split; reflexivity.
Qed.
Example C114_connected_ex : match rexec 0 [ANew; AWait; AWait; AMsg 0] (started range_of (new_world 0) (rdb_file ver9 [] []) (new_rd [serialize (convert_to_message [bs "SET"; bs "k"; bs "v"])])) with Some (s, evs) => r_wait s = WRecv /\ r_chan s = [] /\ r_dead s = false | None => False end.
Proof. vm_compute. auto. Qed.
Theorem C115_bounded_queue range sel w file net acts s evs :
  rexec sel acts (started range w file net) = Some (s, evs) -> zlen (r_chan s) <= 10000.
Proof.
  intros E. refine (rexec_inv sel (fun s _ _ => zlen (r_chan s) <= 10000) _ acts _ _ _ [] [] _ E); clear.
  - intros s _ _ a s' e' HI E.
    assert (Hroom : room s = true -> forall x, zlen (r_chan s ++ [x]) <= 10000).
    { unfold room, max_messages. intros H x. apply Z.ltb_lt in H. rewrite zlen_app, zlen_cons, zlen_nil. lia. }
    step_cases E; auto; try lia; rewrite zlen_cons in HI; lia.
  - unfold started. destruct (load range 0 [file]) as [[ms o] st]. cbn [r_chan]. rewrite zlen_nil. lia.
Qed.
(** A sender waits exactly while the queue is full. *)
Theorem C115_full_queue_waits sel s :
  r_dead s = false ->
  (r_new s = NLoad -> r_todo s <> [] -> (rstep sel ANew s = None <-> 10000 <= zlen (r_chan s))) /\
  (forall m, r_wait s = WSend m -> (rstep sel AWait s = None <-> 10000 <= zlen (r_chan s))).
Proof.
  intros Hd. unfold rstep. rewrite Hd. split.
  - intros -> Ht. destruct (r_todo s); [congruence|]. unfold room, max_messages. destruct (Z.ltb_spec (zlen (r_chan s)) 10000); split; intros H'; try discriminate H'; auto; lia.
  - intros m ->. unfold room, max_messages. destruct (Z.ltb_spec (zlen (r_chan s)) 10000); split; intros H'; try discriminate H'; auto; lia.
Qed.
Example C115_ex : let m := convert_to_message [bs "SET"; bs "k"; bs "v"] in
  match rexec 0 [ANew; AWait; AWait; AWait; AWait; AWait] (started range_of (new_world 0) (rdb_file ver9 [] []) (new_rd [serialize m ++ serialize m ++ serialize m])) with
  | Some (s, _) => zlen (r_chan s) = 2 /\ r_wait s = WSend m /\
                   rstep 0 AWait (set_handler HLoop (repeat (RMsg 0 m) (100 * 100)) (r_w s) s) = None
  | None => False end.
Proof. vm_compute. auto. Qed.

(** ** C116: each error is logged once *)
Definition count {A} (f : A -> bool) (l : list A) : Z := zlen (List.filter f l).
Definition is_warn (e : revent) : bool := match e with VWarn => true | _ => false end.
Definition is_fail (e : revent) : bool := match e with VFail => true | _ => false end.
Definition is_ackfail (a : ract) : bool := match a with AAckFail => true | _ => false end.
(** the errors that occurred so far: HandleMessage's, the acks', and the end of the stream *)
Definition occurred (acts : list ract) (evs : list revent) (s : rs) : Z :=
  count is_fail evs + count is_ackfail acts + match r_wait s with WErr | WClose | WDone => 1 | _ => 0 end.
(** those not yet logged: in the channel, and in the hands of the handler, of Ack and of WaitForMessage *)
Definition pending (s : rs) : Z :=
  (if r_err s then 1 else 0) + match r_h s with HSend => 1 | HLoop => 0 end + match r_ack s with ASend => 1 | _ => 0 end + match r_wait s with WErr => 1 | _ => 0 end.
Lemma count_app {A} (f : A -> bool) l1 l2 : count f (l1 ++ l2) = count f l1 + count f l2.
Proof. unfold count. rewrite List.filter_app, zlen_app. reflexivity. Qed.
Lemma count_cons {A} (f : A -> bool) x l : count f (x :: l) = (if f x then 1 else 0) + count f l.
Proof. unfold count. cbn [List.filter]. destruct (f x); [rewrite zlen_cons|]; reflexivity. Qed.
Lemma count_nil {A} (f : A -> bool) : count f [] = 0.
Proof. reflexivity. Qed.
Theorem C116_logged_once range sel w file net acts s evs :
  rexec sel acts (started range w file net) = Some (s, evs) -> count is_warn evs + pending s = occurred acts evs s.
Proof.
  intros E. refine (proj2 (rexec_inv sel (fun s l e => (r_new s = NLoad -> r_wait s = WOff /\ r_ack s = AOff) /\ count is_warn e + pending s = occurred l e s) _ acts _ _ _ [] [] _ E)); clear.
  - intros s l e a s' e' [HN HI] E. unfold occurred, pending in *. rewrite !count_app.
    step_cases E; rewrite ?count_cons, ?count_nil; cbn [is_warn is_fail is_ackfail]; try (split; [solve [auto|intros EN; destruct (HN EN); discriminate|intros; discriminate]|]); try lia.
    + destruct HN as [HN1 HN2]; [auto|]. rewrite HN1, HN2 in HI. lia.
    + destruct (skipped a0); lia.
  - unfold started. destruct (load range 0 [file]) as [[ms o] st]. split; [auto|reflexivity].
Qed.
(** So none is logged twice, and at most four are not logged yet. *)
Corollary C116_bounds range sel w file net acts s evs :
  rexec sel acts (started range w file net) = Some (s, evs) -> count is_warn evs <= occurred acts evs s <= count is_warn evs + 4.
Proof.
  intros E. pose proof (C116_logged_once _ _ _ _ _ _ _ _ E). unfold pending in *. destruct (r_err s), (r_h s), (r_ack s), (r_wait s); lia.
Qed.
Example C116_ex : let acts := [ANew; AWait; AAckFail; AAck; AErrs; AWait; AAckFail] in
  match rexec 1 acts (started range_of (new_world 0) (rdb_file ver9 [] []) (new_rd [])) with
  | Some (s, evs) => count is_warn evs = 1 /\ occurred acts evs s = 3 /\ pending s = 2
  | None => False end.
Proof. vm_compute. auto. Qed.

(** ** C117: New reports how the load ended *)
Theorem C117_new_reports range sel w file net acts s evs :
  rexec sel acts (started range w file net) = Some (s, evs) ->
  (forall b, VNew b ∈ evs -> (b = true <-> snd (fst (load range 0 [file])) = ONil)) /\
  (* the stream is read, and acks are sent, only after New returned without error *)
  (r_wait s <> WOff \/ r_ack s <> AOff -> VNew true ∈ evs) /\
  (* and everything Load found was then sent to the handler *)
  ((exists b, VNew b ∈ evs) -> r_todo s = []).
Proof.
  intros E. set (o := snd (fst (load range 0 [file]))).
  enough (H : r_out s = o /\ match r_new s with NLoad => (forall b, VNew b ∉ evs) /\ r_wait s = WOff /\ r_ack s = AOff
    | NRet b => (b = true <-> o = ONil) /\ (forall b', VNew b' ∈ evs <-> b' = b) /\ r_todo s = [] /\ (b = false -> r_wait s = WOff /\ r_ack s = AOff) end).
  { destruct H as [_ H]. destruct (r_new s) as [|b].
    - destruct H as (H1 & H2 & H3). split; [intros b Hb; destruct (H1 b Hb)|]. split; [intros [|]; contradiction|intros (b & Hb); destruct (H1 b Hb)].
    - destruct H as (H1 & H2 & H3 & H4). split; [intros b' Hb; apply H2 in Hb as ->; exact H1|]. split; [|auto].
      intros Hx. apply H2. destruct b; [reflexivity|]. destruct H4 as [H4 H5]; [reflexivity|]. destruct Hx; contradiction. }
  refine (rexec_inv sel (fun s _ e => r_out s = o /\ match r_new s with NLoad => (forall b, VNew b ∉ e) /\ r_wait s = WOff /\ r_ack s = AOff
    | NRet b => (b = true <-> o = ONil) /\ (forall b', VNew b' ∈ e <-> b' = b) /\ r_todo s = [] /\ (b = false -> r_wait s = WOff /\ r_ack s = AOff) end) _ acts _ _ _ [] [] _ E); subst o; clear.
  - generalize (snd (fst (load range 0 [file]))) as o. intros o s l e a s' e' [HI1 HI2] E.
    assert (Hno : (forall b, VNew b ∉ e') -> r_out s' = r_out s -> r_new s' = r_new s -> (r_todo s = [] -> r_todo s' = []) ->
      (r_wait s = WOff -> r_wait s' = WOff) -> (r_ack s = AOff -> r_ack s' = AOff) ->
      r_out s' = o /\ match r_new s' with NLoad => (forall b, VNew b ∉ e ++ e') /\ r_wait s' = WOff /\ r_ack s' = AOff
      | NRet b => (b = true <-> o = ONil) /\ (forall b', VNew b' ∈ e ++ e' <-> b' = b) /\ r_todo s' = [] /\ (b = false -> r_wait s' = WOff /\ r_ack s' = AOff) end).
    { intros H1 H2 H3 H4 H5 H6. rewrite H2, H3. split; [exact HI1|]. destruct (r_new s) as [|b].
      - destruct HI2 as (I1 & I2 & I3). split; [|auto]. intros b Hb. apply elem_of_app in Hb as [Hb|Hb]; [eapply I1|eapply H1]; exact Hb.
      - destruct HI2 as (I1 & I2 & I3 & I4). split; [exact I1|]. split; [|split; [auto|intros Hb; destruct (I4 Hb); auto]]. intros b'. rewrite elem_of_app, I2. split; [intros [|Hb]; [assumption|destruct (H1 _ Hb)]|auto]. }
    assert (Hnil : forall b, VNew b ∉ []) by (intros b Hb; apply elem_of_nil in Hb; exact Hb).
    assert (Hone : forall b x, match x with VNew _ => False | _ => True end -> VNew b ∉ [x]) by (intros b x Hx Hb; apply elem_of_list_singleton in Hb; subst x; exact Hx).
    assert (Htwo : forall b x y, match x, y with VNew _, _ | _, VNew _ => False | _, _ => True end -> VNew b ∉ [x; y]) by (intros b x y Hx Hb; apply elem_of_cons in Hb as [<-|Hb]; [exact Hx|]; apply elem_of_list_singleton in Hb; subst y; destruct x; exact Hx).
    step_cases E; try (apply Hno; cbn [r_todo r_out r_new r_wait r_net r_ack]; solve [auto|congruence|intros b; apply Hone; exact I|intros b; apply Htwo; exact I]).
    all: destruct HI2 as (I1 & I2 & I3); split; [congruence|]; split; [split; congruence|]; split; [|split; [reflexivity|intros; split; congruence]].
    all: intros b'; rewrite elem_of_app, elem_of_list_singleton; split; [intros [Hb|[= ->]]; [destruct (I1 _ Hb)|reflexivity]|intros ->; right; reflexivity].
  - unfold started. destruct (load range 0 [file]) as [[ms o] st]. split; [reflexivity|]. cbn [r_new]. split; [|auto]. intros b Hb. apply elem_of_nil in Hb. exact Hb.
Qed.
Example C117_ex : let run file := match rexec 0 [ANew; ANew; AWait] (started range_of (new_world 0) file (new_rd [])) with Some (s, evs) => Some evs | None => None end in
  let ok := rdb_file ver9 [IKey (SRaw (bs "k")) (RdbSpec.VStr (SRaw (bs "v")))] [] in
  run ok = Some [VNew true] /\
  match rexec 0 [ANew] (started range_of (new_world 0) (bs "nonsense!") (new_rd [])) with Some (s, evs) => evs = [VNew false] /\ rstep 0 AWait s = None | None => False end.
Proof. vm_compute. auto. Qed.
Print Assumptions C115_bounded_queue.
Print Assumptions C116_logged_once.
Print Assumptions C117_new_reports.
