From stdpp Require Import gmap list.
From Verif Require Import Base GoFloat CacheModel RespModel RespSpec RespLib RdbModel RdbSpec RdbLib Props_Rdb Props_Cut ReplModel Props_Repl ClientModel PoolModel RemoteModel FacadeModel WriterModel Props_Writer SetupModel.

(** * C197, C198, C199: New when dialling, writing and opening files may fail (xxcache.go, redis/replication.go) *)

(** ** C197: New reports every failure of setting up

    What has to go well before the handler is started: dialling, the two writes to the master, the reply to the ping, creating the
    file, and saving the reply to SYNC. *)
Definition connected (e : env) (s : rd) : Prop :=
  e_dial e = None /\ Forall (fun x => x = None) (take 2 (e_wire e)) /\ exists m, recv (new_rd (e_in e)) = ROk m s /\ msg_string m = bs "PONG".
Definition saved_as (e : env) (s : rd) (file : gostr) (net : rd) : Prop :=
  e_create e = None /\ exists p n d, w_save s (Dev [] (e_disk e)) = (d, SvOk p n net) /\ concat (d_out d) = file.
(** the two messages of the handshake *)
Definition handshake : gostr := serialize (convert_to_message [bs "ping"]) ++ serialize (convert_to_message [bs "SYNC"]).

Lemma prepared o : x_addr (prepare_option o) <> [] /\ x_file (prepare_option o) <> [].
Proof. unfold prepare_option. cbn [x_addr x_file]. repeat case_bool_decide; split; try discriminate; assumption. Qed.
Lemma load_closed_started range w net : load_closed w net = started range w [] net.
Proof. reflexivity. Qed.

Lemma sync_ok addr file e hs sent f net : addr <> [] -> file <> [] ->
  sync_with_env addr file e = (hs, sent, f, YOk net) ->
  hs = [HConn addr; HSave file] /\ sent = handshake /\ exists s F, connected e s /\ saved_as e s F net /\ f = Some F.
Proof.
  intros Ha Hf. unfold sync_with_env. rewrite !bool_decide_eq_false_2 by assumption. destruct (e_dial e) eqn:Ed; [discriminate|]. unfold ping_env.
  rewrite w_send_ok by reflexivity. cbn zeta. cbn [new_bw b_dev d_plan d_out].
  assert (Hw : forall pl, (forall n x, e_wire e <> Some (n, x) :: pl) -> tail (e_wire e) = pl ->
    (let '(b, r) := (Bw [] None (Dev ([] ++ [serialize (convert_to_message [bs "ping"])]) pl),
        match recv (new_rd (e_in e)) with
         | ROk m s1 => if gostr_eqb (msg_string m) (bs "PONG") then inl s1 else inr (YFail (FPong m))
         | RErr x _ => inr (YFail (FRead x))
         | RPanic | RFuel => inr YCrash
         end) in
     match r with
     | inr y => ([HConn addr], concat (d_out (b_dev b)), None, y)
     | inl s => let '(hs, b1, f, y) := sync_env file e b s in (HConn addr :: hs, concat (d_out (b_dev b1)), f, y)
     end) = (hs, sent, f, YOk net) ->
    hs = [HConn addr; HSave file] /\ sent = handshake /\ exists s F, connected e s /\ saved_as e s F net /\ f = Some F).
  { intros pl Hn Hpl. cbn beta iota. destruct (recv (new_rd (e_in e))) as [m s1|x s1| |] eqn:Er; try discriminate. unfold gostr_eqb. case_bool_decide as Hm; [|discriminate].
    unfold sync_env. rewrite w_send_ok by reflexivity. cbn zeta. cbn [b_dev d_plan d_out].
    assert (Hw2 : forall pl2, (forall n x, pl <> Some (n, x) :: pl2) -> tail pl = pl2 ->
      (let '(hs0, b1, f0, y) := (match e_create e with
        | Some x => ([], Bw [] None (Dev (([] ++ [serialize (convert_to_message [bs "ping"])]) ++ [serialize (convert_to_message [bs "SYNC"])]) pl2), None, YFail (FCreate x))
        | None => let '(d, r) := w_save s1 (Dev [] (e_disk e)) in
           ([HSave file], Bw [] None (Dev (([] ++ [serialize (convert_to_message [bs "ping"])]) ++ [serialize (convert_to_message [bs "SYNC"])]) pl2), Some (concat (d_out d)),
            match r with SvOk _ _ net => YOk net | SvRead x => YFail (FSaveRead x) | SvWrite x => YFail (FSave x) | SvCrash => YCrash end)
        end : list opened * bw * option gostr * yres) in (HConn addr :: hs0, concat (d_out (b_dev b1)), f0, y)) = (hs, sent, f, YOk net) ->
      hs = [HConn addr; HSave file] /\ sent = handshake /\ exists s F, connected e s /\ saved_as e s F net /\ f = Some F).
    { intros pl2 Hn2 Hpl2. destruct (e_create e) eqn:Ec; [discriminate|]. destruct (w_save s1 (Dev [] (e_disk e))) as [d r] eqn:Es. intros H.
      destruct r as [p n net'|x|x|]; try discriminate. injection H as <- <- <- <-. split; [reflexivity|]. split; [reflexivity|]. exists s1, (concat (d_out d)).
      split; [|split; [|reflexivity]].
      - split; [exact Ed|]. split; [|exists m; split; [exact Er|exact Hm]]. destruct (e_wire e) as [|[[n1 x1]|] ew]; [constructor|edestruct Hn; cbn in Hpl; subst; reflexivity|]. cbn in Hpl. subst ew.
        destruct pl as [|[[n2 x2]|] pl']; [repeat constructor|edestruct Hn2; cbn in Hpl2; subst; reflexivity|]. repeat constructor.
      - split; [exact Ec|]. exists p, n, d. split; [exact Es|reflexivity]. }
    destruct pl as [|[[n2 x2]|] pl2]; [apply (Hw2 []); [intros ? ? ?; discriminate|reflexivity]| |apply (Hw2 pl2); [intros ? ? ?; discriminate|reflexivity]].
    cbn [b_err]. discriminate. }
  destruct (e_wire e) as [|[[n x]|] pl]; [apply (Hw []); [intros ? ? ?; discriminate|reflexivity]| |apply (Hw pl); [intros ? ? ?; discriminate|reflexivity]].
  cbn [b_err]. discriminate.
Qed.
Lemma sync_ok_back addr file e s F net : addr <> [] -> file <> [] -> connected e s -> saved_as e s F net ->
  sync_with_env addr file e = ([HConn addr; HSave file], handshake, Some F, YOk net).
Proof.
  intros Ha Hf (Ed & Hw & m & Er & Hm) (Ec & p & n & d & Es & Ef). unfold sync_with_env. rewrite !bool_decide_eq_false_2 by assumption. rewrite Ed. unfold ping_env.
  rewrite w_send_ok by reflexivity. cbn zeta. cbn [new_bw b_dev d_plan d_out]. rewrite Er. unfold gostr_eqb. rewrite bool_decide_eq_true_2 by exact Hm.
  assert (K : forall pl, Forall (fun x => x = None) (take 1 pl) ->
    (let '(hs, b1, f, y) := sync_env file e (Bw [] None (Dev [serialize (convert_to_message [bs "ping"])] pl)) s in (HConn addr :: hs, concat (d_out (b_dev b1)), f, y)) = ([HConn addr; HSave file], handshake, Some F, YOk net)).
  { intros pl Hp. unfold sync_env. rewrite w_send_ok by reflexivity. cbn zeta. cbn [b_dev d_plan d_out]. rewrite Ec, Es.
    destruct pl as [|[[n2 x2]|] pl2]; [|inversion Hp as [|? ? Hx _]; discriminate Hx|]; cbn [b_err b_dev d_out]; rewrite Ef; reflexivity. }
  destruct (e_wire e) as [|[[n1 x1]|] pl]; [|inversion Hw as [|? ? Hx _]; discriminate Hx|]; cbn [b_err tail app]; apply K; [constructor|inversion Hw; assumption].
Qed.

(** The handler is started exactly if all of this went well; then the master was sent PING and SYNC, and nothing else. *)
Theorem C197_exact range w o e :
  let '(hs, sent, f, b) := new_env range w o e in
  (forall s0, b = BRun s0 -> sent = handshake /\ exists s F net, connected e s /\ saved_as e s F net /\ f = Some F /\
     s0 = started range w (match e_open e with None => F | Some _ => [] end) net) /\
  (forall s F net, connected e s -> saved_as e s F net -> f = Some F /\ b = BRun (started range w (match e_open e with None => F | Some _ => [] end) net)).
Proof.
  unfold new_env. cbn zeta. destruct (prepared o) as [Ha Hf]. destruct (sync_with_env _ _ e) as [[[hs sent] f] y] eqn:E.
  assert (B : forall s F net, connected e s -> saved_as e s F net -> f = Some F /\ y = YOk net).
  { intros s F net Hc Hs. rewrite (sync_ok_back _ _ _ _ _ _ Ha Hf Hc Hs) in E. injection E as <- <- <- <-. split; reflexivity. }
  destruct y as [net|x|].
  - destruct (sync_ok _ _ _ _ _ _ _ Ha Hf E) as (_ & -> & s & F & Hc & Hs & ->).
    destruct (e_open e); (split; [intros s0 H; injection H as <-; (split; [reflexivity|]); exists s, F, net; auto|]); intros s' F' net' Hc' Hs'; destruct (B _ _ _ Hc' Hs') as [EF EN];
      injection EF as ->; injection EN as ->; split; reflexivity.
  - split; [intros ? H; discriminate H|]. intros s' F' net' Hc' Hs'. destruct (B _ _ _ Hc' Hs') as [_ EN]. discriminate EN.
  - split; [intros ? H; discriminate H|]. intros s' F' net' Hc' Hs'. destruct (B _ _ _ Hc' Hs') as [_ EN]. discriminate EN.
Qed.
(** New returns nil only if everything went well, and then Load reached the end of the file as it is on the disk. *)
Theorem C197_reports range w o e sel acts s evs :
  let '(hs, sent, f, b) := new_env range w o e in
  forall s0, b = BRun s0 -> rexec sel acts s0 = Some (s, evs) -> forall r, VNew r ∈ evs ->
  (r = true <-> e_open e = None /\ exists F, f = Some F /\ snd (fst (load range 0 [F])) = ONil) /\
  (r = true -> sent = handshake /\ exists s1 F net, connected e s1 /\ saved_as e s1 F net /\ f = Some F).
Proof.
  pose proof (C197_exact range w o e) as H. destruct (new_env range w o e) as [[[hs sent] f] b]. destruct H as [H _]. intros s0 Hb Hx r Hr.
  destruct (H s0 Hb) as (Hsent & s1 & F & net & Hc & Hs & -> & ->). destruct (C117_new_reports _ _ _ _ _ _ _ _ Hx) as [Hn _]. specialize (Hn _ Hr). split.
  - rewrite Hn. destruct (e_open e) as [x|] eqn:Eo; [split; [intros K; discriminate K|intros [K _]; discriminate K]|]. split; [intros K; split; [reflexivity|]; exists F; auto|].
    intros (_ & F' & EF & K). injection EF as <-. exact K.
  - intros _. split; [exact Hsent|]. exists s1, F, net. auto.
Qed.
(** Which error New returns, before the handler is started, for each thing that goes wrong first; the state in which the master and the
    file are left. *)
Theorem C197_which range w o e :
  let '(hs, sent, f, b) := new_env range w o e in
  match e_dial e with
  | Some x => b = BFail (FDial x) /\ sent = [] /\ f = None
  | None =>
    match head (e_wire e) with
    | Some (Some (n, x)) => b = BFail (FWrite x) /\ sent = take n (serialize (convert_to_message [bs "ping"])) /\ f = None
    | _ =>
      match recv (new_rd (e_in e)) with
      | RErr x _ => b = BFail (FRead x) /\ sent = serialize (convert_to_message [bs "ping"]) /\ f = None
      | ROk m s =>
        (msg_string m <> bs "PONG" -> b = BFail (FPong m) /\ sent = serialize (convert_to_message [bs "ping"]) /\ f = None) /\
        (msg_string m = bs "PONG" ->
         match nth 1 (e_wire e) None with
         | Some (n, x) => b = BFail (FSync x) /\ sent = serialize (convert_to_message [bs "ping"]) ++ take n (serialize (convert_to_message [bs "SYNC"])) /\ f = None
         | None => sent = handshake /\
           match e_create e with
           | Some x => b = BFail (FCreate x) /\ f = None
           | None => let '(d, r) := w_save s (Dev [] (e_disk e)) in f = Some (concat (d_out d)) /\
             match r with SvWrite x => b = BFail (FSave x) | SvRead x => b = BFail (FSaveRead x) | SvCrash => b = BCrash | SvOk _ _ _ => exists s0, b = BRun s0 end
           end
         end)
      | _ => b = BCrash
      end
    end
  end.
Proof.
  unfold new_env, sync_with_env. cbn zeta. destruct (prepared o) as [Ha Hf]. rewrite !bool_decide_eq_false_2 by assumption. destruct (e_dial e); [auto|]. unfold ping_env.
  rewrite w_send_ok by reflexivity. cbn zeta. cbn [new_bw b_dev d_plan d_out].
  assert (K : forall pl,
    let '(hs, sent, f, b) := (let '(hs, sent, f, y) := (let '(b, r) := (Bw [] None (Dev ([] ++ [serialize (convert_to_message [bs "ping"])]) pl),
        match recv (new_rd (e_in e)) with
         | ROk m s1 => if gostr_eqb (msg_string m) (bs "PONG") then inl s1 else inr (YFail (FPong m))
         | RErr x _ => inr (YFail (FRead x))
         | RPanic | RFuel => inr YCrash
         end) in
     match r with
     | inr y => ([HConn (x_addr (prepare_option o))], concat (d_out (b_dev b)), None, y)
     | inl s => let '(hs, b1, f, y) := sync_env (x_file (prepare_option o)) e b s in (HConn (x_addr (prepare_option o)) :: hs, concat (d_out (b_dev b1)), f, y)
     end) in
      match y with
      | YOk net => match e_open e with
        | Some _ => (hs, sent, f, BRun (load_closed w net))
        | None => (hs ++ [HLoad (x_file (prepare_option o))], sent, f, BRun (started range w (default [] f) net)) end
      | YFail x => (hs, sent, f, BFail x) | YCrash => (hs, sent, f, BCrash) end) in
    match recv (new_rd (e_in e)) with
    | RErr x _ => b = BFail (FRead x) /\ sent = serialize (convert_to_message [bs "ping"]) /\ f = None
    | ROk m s =>
        (msg_string m <> bs "PONG" -> b = BFail (FPong m) /\ sent = serialize (convert_to_message [bs "ping"]) /\ f = None) /\
        (msg_string m = bs "PONG" ->
         match nth 0 pl None with
         | Some (n, x) => b = BFail (FSync x) /\ sent = serialize (convert_to_message [bs "ping"]) ++ take n (serialize (convert_to_message [bs "SYNC"])) /\ f = None
         | None => sent = handshake /\
           match e_create e with
           | Some x => b = BFail (FCreate x) /\ f = None
           | None => let '(d, r) := w_save s (Dev [] (e_disk e)) in f = Some (concat (d_out d)) /\
             match r with SvWrite x => b = BFail (FSave x) | SvRead x => b = BFail (FSaveRead x) | SvCrash => b = BCrash | SvOk _ _ _ => exists s0, b = BRun s0 end
           end
         end)
    | _ => b = BCrash
    end).
  { intros pl. cbn beta iota. destruct (recv (new_rd (e_in e))) as [m s1|x s1| |]; [|cbn; rewrite ?app_nil_r; auto..]. unfold gostr_eqb. case_bool_decide as Hm.
    - unfold sync_env. rewrite w_send_ok by reflexivity. cbn zeta. cbn [b_dev d_plan d_out].
      destruct pl as [|[[n2 x2]|] pl2]; cbn [b_err b_dev d_out nth].
      + destruct (e_create e); [split; [contradiction|]; intros _; auto|]. destruct (w_save s1 (Dev [] (e_disk e))) as [d r]. destruct r; [destruct (e_open e)|..]; (split; [contradiction|]); intros _; (split; [reflexivity|]); eauto.
      + split; [contradiction|]. intros _. split; [reflexivity|]. split; [|reflexivity]. cbn [app concat]. rewrite app_nil_r. reflexivity.
      + destruct (e_create e); [split; [contradiction|]; intros _; auto|]. destruct (w_save s1 (Dev [] (e_disk e))) as [d r]. destruct r; [destruct (e_open e)|..]; (split; [contradiction|]); intros _; (split; [reflexivity|]); eauto.
    - split; [|contradiction]. intros _. cbn [b_dev d_out app concat]. rewrite app_nil_r. auto. }
  destruct (e_wire e) as [|[[n x]|] pl]; cbn [b_err head nth tail].
  - exact (K []).
  - cbn [b_dev d_out app concat]. rewrite app_nil_r. auto.
  - specialize (K pl). exact K.
Qed.
(** With no failures this is the model used so far. *)
Theorem C197_without_failures range w o cs :
  let '(hs, sent, f, b) := new_env range w o (Env None cs [] None [] None) in
  match sync_with_redis (new_rd cs) with
  | (out, file, SOk net) => sent = out /\ f = file /\ exists F, file = Some F /\ b = BRun (started range w F net)
  | (out, file, SErr) => sent = out /\ f = file /\ exists x, b = BFail x
  | (out, file, SPanic) => b = BCrash
  end.
Proof.
  pose proof (C197_which range w o (Env None cs [] None [] None)) as H. pose proof (C197_exact range w o (Env None cs [] None [] None)) as G.
  destruct (new_env range w o _) as [[[hs sent] f] b]. destruct G as [G _]. unfold sync_with_redis. cbn [e_dial e_wire head e_in nth e_create e_disk e_open] in H, G. unfold send.
  destruct (recv (new_rd cs)) as [m s|x s| |] eqn:Er; [|destruct H as (-> & -> & ->); eauto|exact H..]. unfold gostr_eqb. case_bool_decide as Hm.
  - destruct H as [_ H]. destruct (H Hm) as (-> & H'). clear H. pose proof (C189_without_failures s) as S. destruct (w_save s (Dev [] [])) as [d r] eqn:Es. destruct H' as [-> Hr].
    destruct (read_with_writer s) as [file r0]. destruct S as [Sf ->]. destruct r0 as [[p n] s'|e s'| |].
    + destruct Hr as [s0 ->]. destruct (G s0 eq_refl) as (_ & s2 & F & net & (_ & _ & m' & Er' & _) & (_ & p' & n' & d' & Es' & EF) & EF' & ->).
      cbn [e_in e_disk] in Er', Es'. rewrite Er in Er'. injection Er' as <- <-. rewrite Es in Es'. injection Es' as -> -> -> ->. rewrite Sf. injection EF' as EF'. split; [reflexivity|]. split; [reflexivity|].
      exists file. split; [reflexivity|]. rewrite <- EF', Sf. reflexivity.
    + rewrite Sf. eauto.
    + exact Hr.
    + exact Hr.
  - destruct H as [H _]. destruct (H Hm) as (-> & -> & ->). eauto.
Qed.

(** ** C198: a disk that fails while the snapshot is saved

    Full statement: if New returns nil then the snapshot file holds the snapshot the master sent.  False ([C198_refuted]): the error of the
    last write is dropped (C189).  But all that may be missing are bytes of the checksum behind the end mark: otherwise Load fails on the
    file, and New reports that.  Whatever the disk does, New returns nil only if everything in the snapshot was loaded, and the live
    stream begins where the snapshot ends.  Missing: for snapshots that Load
    does not read correctly either (C77, C83, C84) the one message of C200. *)
Lemma wire_prefix ts : forall plan, concat (fst (on_the_wire plan ts)) `prefix_of` concat ts.
Proof.
  induction ts as [|t r IH]; intros plan; cbn [on_the_wire]; [exists []; reflexivity|].
  assert (K : concat (fst (let '(out, es) := on_the_wire (tail plan) r in (t :: out, None (A := gostr) :: es))) `prefix_of` concat (t :: r)).
  { specialize (IH (tail plan)). destruct (on_the_wire (tail plan) r) as [out es]. cbn [fst concat] in *. apply prefix_app, IH. }
  destruct plan as [|[[n e]|] pl]; [exact K| |exact K]. cbn [fst concat]. rewrite app_nil_r. exists (drop n t ++ concat r). rewrite app_assoc, take_drop. reflexivity.
Qed.
Lemma save_prefix e s payload rest F net : int64 (zlen payload) -> wf s -> bytes_left s = bs "$" ++ itoa (zlen payload) ++ crlf ++ payload ++ rest ->
  saved_as e s F net -> F `prefix_of` payload /\ bytes_left net = rest.
Proof.
  intros Hn W E (_ & p & n & d & Es & <-). destruct (blocks_exist payload) as [bl Hb]. pose proof (save_exact payload bl rest s (e_disk e) Hn Hb W E) as H. rewrite Es in H.
  destruct H as [-> H]. split; [destruct Hb as [-> _]; apply wire_prefix|]. destruct (failed _); [discriminate|]. destruct H as (s' & Hs & <-). injection Hs as _ _ ->. reflexivity.
Qed.
Theorem C198_loaded_partial range w o e sel version l sum rest acts s evs :
  is_range range -> length version = 9%nat -> Forall item_small l -> unsplit l -> int64 (zlen (rdb_file version l sum)) ->
  concat (e_in e) = bs "+PONG" ++ crlf ++ bs "$" ++ itoa (zlen (rdb_file version l sum)) ++ crlf ++ rdb_file version l sum ++ rest ->
  let '(hs, sent, f, b) := new_env range w o e in
  forall s0, b = BRun s0 -> rexec sel acts s0 = Some (s, evs) -> VNew true ∈ evs ->
  exists sum' net, sum' `prefix_of` sum /\ f = Some (rdb_file version l sum') /\ bytes_left net = rest /\
    (* the goroutines are in the state they would be in if the disk had not failed *)
    s0 = started range w (rdb_file version l sum) net.
Proof.
  intros Hr Hv Hl Hu Hn E. pose proof (C197_exact range w o e) as X. pose proof (C197_reports range w o e sel acts s evs) as R. destruct (new_env range w o e) as [[[hs sent] f] b].
  intros s0 Hb Hx Ht. destruct X as [X _]. destruct (X s0 Hb) as (_ & s1 & F & net & (_ & _ & m & Er & _) & Hs & -> & ->).
  destruct (R _ Hb Hx true Ht) as [RR _]. destruct (proj1 RR eq_refl) as (Eo & F' & EF & Hnil). injection EF as <-. rewrite Eo in *.
  destruct (recv_pong _ _ E) as (s2 & R2 & E2 & W2). rewrite Er in R2. injection R2 as -> ->. destruct (save_prefix e s2 _ _ _ _ Hn W2 E2 Hs) as [Hp Hb'].
  assert (Hs' : exists sum', F = rdb_file version l sum' /\ sum' `prefix_of` sum).
  { destruct Hp as [more Hp]. unfold rdb_file in Hp. rewrite (app_assoc _ [xff]), (app_assoc version) in Hp.
    symmetry in Hp. destruct (app_split _ _ _ _ Hp) as [(u & E1 & Hne & E3)|(u & E1 & E3)].
    - exfalso. symmetry in E1. destruct (cut_file range version l F u 0 Hr Hv Hl Hu) as [K _]; auto.
    - exists u. split; [rewrite E1; unfold rdb_file; rewrite <- !app_assoc; reflexivity|]. exists more. exact E3. }
  destruct Hs' as (sum' & -> & Hp'). exists sum', net. split; [exact Hp'|]. split; [reflexivity|]. split; [exact Hb'|].
  unfold started. rewrite !load_file by assumption. reflexivity.
Qed.
(** For all snapshots, whatever is in them: the file is a beginning of what the master sent, and Load sends for it what it sends for the whole, but for the
    one key of C200. *)
Theorem C198_any_partial range w o e sel payload rest acts s evs : int64 (zlen payload) ->
  concat (e_in e) = bs "+PONG" ++ crlf ++ bs "$" ++ itoa (zlen payload) ++ crlf ++ payload ++ rest ->
  let '(hs, sent, f, b) := new_env range w o e in
  forall s0, b = BRun s0 -> rexec sel acts s0 = Some (s, evs) -> VNew true ∈ evs ->
  exists F net ms ms' st, F `prefix_of` payload /\ f = Some F /\ bytes_left net = rest /\ s0 = started range w F net /\
    load range 0 [F] = (ms, ONil, st) /\ load range 0 [payload] = (ms', ONil, st) /\ near ms ms'.
Proof.
  intros Hn E. pose proof (C197_exact range w o e) as X. pose proof (C197_reports range w o e sel acts s evs) as R. destruct (new_env range w o e) as [[[hs sent] f] b].
  intros s0 Hb Hx Ht. destruct X as [X _]. destruct (X s0 Hb) as (_ & s1 & F & net & (_ & _ & m & Er & _) & Hs & -> & ->).
  destruct (R _ Hb Hx true Ht) as [RR _]. destruct (proj1 RR eq_refl) as (Eo & F' & EF & Hnil). injection EF as <-. rewrite Eo in *.
  destruct (recv_pong _ _ E) as (s2 & R2 & E2 & W2). rewrite Er in R2. injection R2 as -> ->. destruct (save_prefix e s2 _ _ _ _ Hn W2 E2 Hs) as [[more ->] Hb'].
  destruct (load range 0 [F]) as [[ms oc] st] eqn:El. cbn [fst snd] in Hnil. subst oc. destruct (C200_cut_partial _ _ _ more _ _ El) as (ms' & El' & N).
  exists F, net, ms, ms', st. split; [exists more; reflexivity|]. auto 10.
Qed.
(** a disk that is full one byte before the end of the checksum *)
Definition full_disk (n : nat) (file : gostr) : env :=
  Env None [bs "+PONG" ++ crlf; bs "$" ++ itoa (zlen file) ++ crlf ++ file] [] None [Some (n, bs "no space left on device")] None.
Definition one_key : gostr := rdb_file ver9 [IKey (SRaw (bs "k")) (RdbSpec.VStr (SRaw (bs "v")))] (bs "checksum").
Theorem C198_refuted :
  let '(_, _, f, b) := new_env range_of (new_world 0) (XOpt [] [] 0) (full_disk 21 one_key) in
  length one_key = 23%nat /\ f = Some (take 21 one_key) /\
  match b with BRun s0 => match rexec 0 [ANew; ANew] s0 with Some (s, evs) => evs = [VNew true] | None => False end | _ => False end.
Proof. vm_compute. auto. Qed.
(** full within the key: the file is cut off there, and Load makes New report it *)
Example C198_ex :
  let '(_, _, f, b) := new_env range_of (new_world 0) (XOpt [] [] 0) (full_disk 12 one_key) in
  f = Some (take 12 one_key) /\ match b with BRun s0 => match rexec 0 [ANew] s0 with Some (s, evs) => evs = [VNew false] | None => False end | _ => False end.
Proof. vm_compute. auto. Qed.
Example C197_ex :
  let '(_, _, _, b) := new_env range_of (new_world 0) (XOpt [] [] 0) (Env None [bs "+PONG" ++ crlf] [None; Some (3%nat, bs "broken pipe")] None [] None) in b = BFail (FSync (bs "broken pipe")).
Proof. reflexivity. Qed.

(** the phases of New and of the goroutines it starts *)
Definition phases (s : rs) : Prop :=
  match r_new s with
  | NRet true => r_wait s <> WOff /\ r_ack s <> AOff /\ (r_wait s = WDone -> r_closed s = true)
  | _ => r_wait s = WOff /\ r_ack s = AOff
  end.
Lemma phases_step sel a s s' evs : phases s -> rstep sel a s = Some (s', evs) ->
  phases s' /\ (forall r, r_new s = NRet r -> r_new s' = NRet r) /\ (forall r, VNew r ∈ evs -> r_new s' = NRet r).
Proof.
  intros P. unfold rstep. destruct (r_dead s); [discriminate|].
  assert (Hn : forall (ev : list revent) r (Q : Prop), Forall (fun e => match e with VNew _ => False | _ => True end) ev -> VNew r ∈ ev -> Q).
  { intros ev r Q F H. rewrite Forall_forall in F. destruct (F _ (proj1 (elem_of_list_In _ _) H)). }
  assert (Hc : forall s' ev, crash s = Some (s', ev) -> phases s' /\ (forall r, r_new s = NRet r -> r_new s' = NRet r) /\ (forall r, VNew r ∈ ev -> r_new s' = NRet r)).
  { unfold crash. intros s2 ev H. injection H as <- <-. split; [exact P|]. split; [auto|]. intros r. apply Hn. repeat constructor. }
  assert (Hh : forall t db m c ev s' evs, match ev with VNew _ => False | _ => True end -> handle sel t db m c ev s = Some (s', evs) ->
    phases s' /\ (forall r, r_new s = NRet r -> r_new s' = NRet r) /\ (forall r, VNew r ∈ evs -> r_new s' = NRet r)).
  { intros t db m c ev s2 ev2 Hev. unfold handle. destruct (negb (db =? sel)); [|destruct (handle_message t m (r_w s)); [| |apply Hc|discriminate]];
      intros H; injection H as <- <-; (split; [exact P|]; split; [auto|]; intros r; apply Hn; repeat constructor; exact Hev). }
  destruct a.
  - destruct (r_new s) eqn:En; [|discriminate]. assert (P0 : r_wait s = WOff /\ r_ack s = AOff) by (unfold phases in P; rewrite En in P; exact P). destruct (r_todo s) as [|m td].
    + destruct (r_out s); try discriminate; try (intros H; destruct (Hc _ _ H) as (A & B & C); split; [exact A|split; [discriminate|exact C]]); intros H; injection H as <- <-.
      * split; [unfold phases; cbn; repeat split; discriminate|]. split; [discriminate|]. intros r Hr. apply elem_of_list_singleton in Hr. injection Hr as ->. reflexivity.
      * split; [exact P0|]. split; [discriminate|]. intros r Hr. apply elem_of_list_singleton in Hr. injection Hr as ->. reflexivity.
    + destruct (room s); [|discriminate]. intros H; injection H as <- <-. split; [exact P0|]. split; [discriminate|]. intros r. apply Hn. constructor.
  - destruct (r_h s); [|discriminate]. destruct (r_chan s) as [|m r]; [destruct (r_closed s); [|discriminate]|]; apply Hh; exact I.
  - destruct (r_h s); [|discriminate]. destruct (r_err s); [|discriminate]. intros H; injection H as <- <-. split; [exact P|]. split; [auto|]. intros r. apply Hn. repeat constructor.
  - destruct (r_h s); [discriminate|]. destruct (r_err s); [discriminate|]. intros H; injection H as <- <-. split; [exact P|]. split; [auto|]. intros r. apply Hn. repeat constructor.
  - assert (G : forall x net c cl e, r_wait s <> WOff -> x <> WOff -> (x = WDone -> cl = true) -> phases (set_wait x net c cl e s) /\ (forall r, r_new s = NRet r -> r_new (set_wait x net c cl e s) = NRet r) /\ (forall r, VNew r ∈ [] -> r_new (set_wait x net c cl e s) = NRet r)).
    { intros x net c cl e Ho Hx Hd. unfold phases in *. cbn. destruct (r_new s) as [|[]]; [destruct P; contradiction| |destruct P; contradiction]. split; [split; [exact Hx|]; split; [apply P|exact Hd]|]. split; [auto|]. intros r. apply Hn. constructor. }
    destruct (r_wait s) eqn:Ew; try discriminate.
    + destruct (recv (r_net s)) as [m n|x n| |]; [| |apply Hc|discriminate]; intros H; injection H as <- <-; apply G; try discriminate; destruct (skipped m); discriminate.
    + destruct (room s); [|discriminate]. intros H; injection H as <- <-; apply G; discriminate.
    + destruct (r_err s); [discriminate|]. intros H; injection H as <- <-; apply G; discriminate.
    + intros H; injection H as <- <-; apply G; [discriminate..|reflexivity].
  - destruct (r_ack s) eqn:Ea; try discriminate. intros H; injection H as <- <-. unfold phases in *. cbn. destruct (r_new s) as [|[]]; [destruct P; congruence| |destruct P; congruence].
    split; [split; [apply P|]; split; [discriminate|apply P]|]. split; [auto|]. intros r. apply Hn. constructor.
  - destruct (r_ack s) eqn:Ea; try discriminate. destruct (r_err s); [discriminate|]. intros H; injection H as <- <-. unfold phases in *. cbn. destruct (r_new s) as [|[]]; [destruct P; congruence| |destruct P; congruence].
    split; [split; [apply P|]; split; [discriminate|apply P]|]. split; [auto|]. intros r. apply Hn. constructor.
Qed.
Lemma phases_exec sel acts : forall s s' evs, phases s -> rexec sel acts s = Some (s', evs) ->
  phases s' /\ (forall r, r_new s = NRet r -> r_new s' = NRet r) /\ (forall r, VNew r ∈ evs -> r_new s' = NRet r).
Proof.
  induction acts as [|a acts IH]; intros s s' evs P; cbn [rexec].
  - intros H; injection H as <- <-. split; [exact P|]. split; [auto|]. intros r H. inversion H.
  - destruct (rstep sel a s) as [[s1 e1]|] eqn:E1; [|discriminate]. destruct (rexec sel acts s1) as [[s2 e2]|] eqn:E2; [|discriminate]. intros H; injection H as <- <-.
    destruct (phases_step _ _ _ _ _ P E1) as (P1 & A1 & B1). destruct (IH _ _ _ P1 E2) as (P2 & A2 & B2). split; [exact P2|]. split; [auto|]. intros r Hr.
    apply elem_of_app in Hr as [Hr|Hr]; auto.
Qed.

(** ** C199: what New leaves open

    Full statement: when New returns an error, what it opened is closed, and no goroutine it started runs.  False: New closes nothing, neither
    then nor when it succeeds, and when Load fails handleReplication runs on.  What is open and what runs, exactly: *)
Theorem C199_exact_partial range w o e sel acts s evs :
  let '(hs, sent, f, b) := new_env range w o e in
  hs = (match e_dial e with None => [HConn (x_addr (prepare_option o))] | Some _ => [] end) ++
       (match f with Some _ => [HSave (x_file (prepare_option o))] | None => [] end) ++
       (match b, e_open e with BRun _, None => [HLoad (x_file (prepare_option o))] | _, _ => [] end) /\
  match b with
  | BRun s0 => rexec sel acts s0 = Some (s, evs) ->
    (VNew false ∈ evs -> gors b s = [GHandle]) /\
    (VNew true ∈ evs -> gors b s = [GHandle; GWait; GAck] \/ (gors b s = [GHandle; GAck] /\ r_closed s = true))
  | _ => gors b s = []
  end.
Proof.
  unfold new_env. cbn zeta. destruct (prepared o) as [Ha Hf].
  destruct (sync_with_env _ _ e) as [[[hs sent] f] y] eqn:E.
  assert (Hh : hs = (match e_dial e with None => [HConn (x_addr (prepare_option o))] | Some _ => [] end) ++ (match f with Some _ => [HSave (x_file (prepare_option o))] | None => [] end)).
  { revert E. unfold sync_with_env. rewrite !bool_decide_eq_false_2 by assumption. destruct (e_dial e); [intros H; injection H as <- <- <- <-; reflexivity|].
    destruct (ping_env _ _) as [b r]. destruct r as [s1|y1]; [|intros H; injection H as <- <- <- <-; reflexivity].
    unfold sync_env. destruct (b_err _); [intros H; injection H as <- <- <- <-; reflexivity|]. destruct (e_create e); [intros H; injection H as <- <- <- <-; reflexivity|].
    destruct (w_save _ _) as [d r]. intros H; injection H as <- <- <- <-; reflexivity. }
  assert (G : forall s0, r_new s0 = NLoad -> phases s0 -> rexec sel acts s0 = Some (s, evs) ->
    (VNew false ∈ evs -> gors (BRun s0) s = [GHandle]) /\
    (VNew true ∈ evs -> gors (BRun s0) s = [GHandle; GWait; GAck] \/ (gors (BRun s0) s = [GHandle; GAck] /\ r_closed s = true))).
  { intros s0 _ P Hx. destruct (phases_exec _ _ _ _ _ P Hx) as (P' & _ & B). unfold phases in P'. unfold gors. split; intros Hr; apply B in Hr; rewrite Hr in P'.
    - destruct P' as [-> ->]. reflexivity.
    - destruct P' as (Hw & Ha' & Hd). destruct (r_ack s); [contradiction| |]; (destruct (r_wait s); [contradiction| | | | |]); auto. }
  destruct y as [net|x|]; [|rewrite Hh, app_nil_r; auto..].
  destruct (e_open e); (split; [rewrite Hh, <- ?app_assoc, ?app_nil_r; reflexivity|]); apply G; try reflexivity; unfold started; try destruct (load range 0 _) as [[ms oo] st]; try reflexivity; split; reflexivity.
Qed.
(** once the connection is made it stays open, whatever New returns *)
Theorem C199_conn_refuted range w o e : e_dial e = None -> let '(hs, _, _, _) := new_env range w o e in HConn (x_addr (prepare_option o)) ∈ hs.
Proof.
  intros Ed. pose proof (C199_exact_partial range w o e 0 [] (load_closed w (new_rd [])) []) as H. destruct (new_env range w o e) as [[[hs sent] f] b]. destruct H as [-> _]. rewrite Ed. left.
Qed.
(** a snapshot that cannot be loaded: the connection, both files and a goroutine are left *)
Example C199_ex :
  let '(hs, _, _, b) := new_env range_of (new_world 0) (XOpt [] [] 0) (Env None [bs "+PONG" ++ crlf ++ bs "$9" ++ crlf ++ bs "nonsense!"] [] None [] None) in
  hs = [HConn (bs "127.0.0.1:6379"); HSave (bs "temp.rdb"); HLoad (bs "temp.rdb")] /\
  match b with BRun s0 => match rexec 0 [ANew] s0 with Some (s, evs) => evs = [VNew false] /\ gors b s = [GHandle] | None => False end | _ => False end.
Proof. vm_compute. auto. Qed.
Print Assumptions C197_which.
Print Assumptions C198_loaded_partial.
Print Assumptions C199_exact_partial.
