(** * Props_Ack: what a replica tells its master (C137) *)
From stdpp Require Import gmap.
From Verif Require Import Base GoFloat CacheModel CacheSpec CacheAbs CacheMain CacheLib RespModel RespSpec RespLib Props_Resp RdbModel RdbSpec RdbLib Props_Rdb ReplModel Props_Repl AckModel.

(** ** C137: a replica acknowledges what it has received
    Full statement: every second after New has returned, the replica sends REPLCONF ACK n, where n is the snapshot's
    replication offset plus the number of bytes of the stream it has received since.
    Missing: n is always the snapshot's offset. *)
(** the acknowledgement of the offset [n], as a message of the protocol *)
Definition ack_of (n : Z) : msg := MArr [MBulk (bs "ReplConf"); MBulk (bs "ack"); MBulk (itoa n)].
Fixpoint acks_in (l : list aact) : nat := match l with [] => 0%nat | BAck :: r => S (acks_in r) | _ :: r => acks_in r end.
Lemma acks_in_app a b : acks_in (a ++ b) = (acks_in a + acks_in b)%nat.
Proof. induction a as [|[x|] a IH]; cbn; auto. Qed.
Lemma aexec_inv sel (I : ar -> list aact -> list revent -> Prop) :
  (forall s l e a s' e', I s l e -> astep sel a s = Some (s', e') -> I s' (l ++ [a]) (e ++ e')) ->
  forall acts s s' evs l e, I s l e -> aexec sel acts s = Some (s', evs) -> I s' (l ++ acts) (e ++ evs).
Proof.
  intros Hstep. induction acts as [|a acts IH]; intros s s' evs l e HI E; cbn [aexec] in E; [injection E as <- <-; rewrite !app_nil_r; exact HI|].
  destruct (astep sel a s) as [[s1 e1]|] eqn:E1; [|discriminate]. destruct (aexec sel acts s1) as [[s2 e2]|] eqn:E2; [|discriminate]. injection E as <- <-.
  specialize (IH s1 s2 e2 (l ++ [a]) (e ++ e1) (Hstep _ _ _ _ _ _ HI E1) E2). rewrite <- !app_assoc in IH. exact IH.
Qed.
Lemma wires_app l1 l2 s1 s2 : wires l1 s1 -> wires l2 s2 -> wires (l1 ++ l2) (s1 ++ s2).
Proof. induction 1; cbn; intros H2; auto. rewrite <- app_assoc. constructor; auto. Qed.
Lemma ack_wire n : wire (ack_of n) (ack_bytes n).
Proof. exact (C56_every_message_encoded (ack_of n) ltac:(cbn; auto)). Qed.
Lemma replicate_snoc {A} n (x : A) : replicate (S n) x = replicate n x ++ [x].
Proof. induction n as [|n IH]; cbn in *; [reflexivity|]. rewrite <- IH. reflexivity. Qed.

Lemma sent_acks range sel w file net acts s evs : aexec sel acts (ack_started range w file net) = Some (s, evs) ->
  wires (replicate (acks_in acts) (ack_of (let '(_, _, st) := load range 0 [file] in l_off st))) (a_sent s) /\
  (acks_in acts <> 0%nat -> VNew true ∈ evs) /\
  exists racts, rexec sel racts (started range w file net) = Some (a_rs s, evs).
Proof.
  intros E.
  refine (let H := aexec_inv sel (fun s l e => a_off s = (let '(_, _, st) := load range 0 [file] in l_off st) /\
    wires (replicate (acks_in l) (ack_of (let '(_, _, st) := load range 0 [file] in l_off st))) (a_sent s) /\
    (r_ack (a_rs s) <> AOff -> VNew true ∈ e) /\ (acks_in l <> 0%nat -> VNew true ∈ e) /\
    exists racts, rexec sel racts (started range w file net) = Some (a_rs s, e)) _ acts _ _ _ [] [] _ E in _).
  - destruct H as (_ & H1 & _ & H2 & H3). auto.
  Unshelve.
  + clear. intros s l e a s' e' (HO & HW & HA & HN & racts & HR) E. rewrite acks_in_app. destruct a as [x|]; cbn [astep] in E.
    * destruct (rstep sel x (a_rs s)) as [[r e1]|] eqn:E1; [|discriminate]. injection E as <- <-. cbn [a_rs a_off a_sent acks_in]. rewrite Nat.add_0_r.
      split; [exact HO|]. split; [exact HW|]. split; [|split].
      -- intros HA'. apply elem_of_app. assert (Hc : r_ack (a_rs s) <> AOff \/ VNew true ∈ e1); [|destruct Hc; auto].
         clear - E1 HA'. destruct (a_rs s). cbn [ReplModel.r_ack] in *. step_cases E1; cbn in *; subst; try (left; exact HA'); try (left; discriminate); right; left.
      -- intros Hn. apply elem_of_app. auto.
      -- exists (racts ++ [x]). clear - HR E1. revert HR. generalize (started range w file net) as s0. intros s0. revert s0 e.
         induction racts as [|y racts IH]; intros s0 e HR; cbn [rexec app] in *.
         ++ injection HR as -> <-. rewrite E1. rewrite app_nil_r. reflexivity.
         ++ destruct (rstep sel y s0) as [[s1 e2]|]; [|discriminate]. destruct (rexec sel racts s1) as [[s2 e3]|] eqn:E2; [|discriminate]. injection HR as -> <-.
            rewrite (IH _ _ E2). rewrite app_assoc. reflexivity.
    * destruct (r_dead (a_rs s)); [discriminate|]. destruct (r_ack (a_rs s)) eqn:EA; try discriminate. injection E as <- <-. cbn [a_rs a_off a_sent acks_in]. rewrite app_nil_r.
      split; [exact HO|]. split; [|split; [|split]].
      -- rewrite Nat.add_1_r, replicate_snoc. apply wires_app; auto. rewrite <- (app_nil_r (ack_bytes _)). constructor; [|constructor]. rewrite HO. apply ack_wire.
      -- intros _. apply HA. congruence.
      -- intros _. apply HA. congruence.
      -- exists racts. exact HR.
  + unfold ack_started. destruct (load range 0 [file]) as [[ms o] st] eqn:EL. cbn [a_rs a_off a_sent acks_in replicate]. split; [reflexivity|]. split; [constructor|].
    split; [|split; [congruence|exists []; reflexivity]]. unfold started. rewrite EL. cbn. congruence.
Qed.

(** Whatever stream arrives and however much of it is received and handled: every acknowledgement names the offset of
    the snapshot. *)
Theorem C137_offset_never_moves_refuted range version l sum sel w net acts s evs : is_range range -> length version = 9%nat -> Forall item_small l -> unsplit l ->
  aexec sel acts (ack_started range w (rdb_file version l sum) net) = Some (s, evs) ->
  exists off, match last_aux (bs "repl-offset") None l with Some t => atoi t = Some off | None => off = 0 end /\
  wires (replicate (acks_in acts) (ack_of off)) (a_sent s).
Proof.
  intros Hr Hv Hl Hu E. pose proof (C108_partial range version l sum 0 Hr Hv Hl Hu) as H8. apply sent_acks in E as (HW & _).
  destruct (load range 0 [rdb_file version l sum]) as [[ms o] st]. destruct H8 as (_ & _ & HO). exists (l_off st). auto.
Qed.
(** Two commands are received and handled between the acknowledgements, which are equal. *)
Definition ack_snapshot : gostr := rdb_file ver9 [IAux (SRaw (bs "repl-offset")) (SRaw (bs "1234"))] [].
Definition ack_stream : gostr := serialize (convert_to_message [bs "SET"; bs "a"; bs "1"]) ++ serialize (convert_to_message [bs "SET"; bs "b"; bs "2"]).
Example C137_refuted_ex :
  match aexec 0 [BRepl ANew; BAck; BRepl AWait; BRepl AWait; BRepl (AMsg 5); BAck; BRepl AWait; BRepl AWait; BRepl (AMsg 6); BAck]
              (ack_started range_of (new_world 0) ack_snapshot (new_rd [ack_stream])) with
  | Some (s, evs) => a_sent s = concat (replicate 3 (bs "*3" ++ crlf ++ bs "$8" ++ crlf ++ bs "ReplConf" ++ crlf ++ bs "$3" ++ crlf ++ bs "ack" ++ crlf ++ bs "$4" ++ crlf ++ bs "1234" ++ crlf)) /\ bytes_left (r_net (a_rs s)) = []
  | None => False
  end.
Proof. vm_compute. auto. Qed.

(** What holds, for every snapshot, whatever the master sends: after the snapshot was saved the replica sends nothing
    but acknowledgements of one offset, one whole request per tick, and the first only after New has returned without
    error. *)
Theorem C137_only_acks_partial range sel w file net acts s evs : aexec sel acts (ack_started range w file net) = Some (s, evs) ->
  exists off, wires (replicate (acks_in acts) (ack_of off)) (a_sent s) /\ (a_sent s <> [] -> VNew true ∈ evs).
Proof.
  intros E. apply sent_acks in E as (HW & HN & _). eexists. split; [exact HW|]. intros Hs. apply HN. intros H0. rewrite H0 in HW. inversion HW. congruence.
Qed.
(** A tick in the running replica sends one more ack. *)
Theorem C137_each_tick_partial sel s : r_dead (a_rs s) = false -> r_ack (a_rs s) = AIdle ->
  exists s', astep sel BAck s = Some (s', []) /\ a_rs s' = a_rs s /\ exists b, a_sent s' = a_sent s ++ b /\ wire (ack_of (a_off s)) b.
Proof.
  intros Hd Ha. cbn [astep]. rewrite Hd, Ha. eexists. split; [reflexivity|]. split; [reflexivity|]. eexists. split; [reflexivity|]. apply ack_wire.
Qed.
Example C137_only_acks_ex :
  match aexec 0 [BRepl ANew; BAck; BRepl AAckFail; BRepl AAck; BAck] (ack_started range_of (new_world 0) ack_snapshot (new_rd [])) with
  | Some (s, evs) => a_sent s <> [] /\ evs = [VNew true] /\ r_err (a_rs s) = true
  | None => False
  end /\ aexec 0 [BAck] (ack_started range_of (new_world 0) ack_snapshot (new_rd [])) = None.
Proof. vm_compute. split; [split; [discriminate|auto]|reflexivity]. Qed.
