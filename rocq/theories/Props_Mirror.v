(** * Props_Mirror: from the bytes the master sends to what the client's Get shows *)
From stdpp Require Import gmap.
From Verif Require Import Base GoFloat CacheModel CacheSpec CacheAbs CacheRefine CacheRefineH CacheMain CacheLib RespModel RespSpec RespLib Props_Resp RdbModel RdbSpec RdbLib Props_Rdb ReplModel Props_Repl.
From Verif Require Import ClientModel PoolModel RemoteModel Props_Remote FacadeModel Props_Facade.


Lemma recv_step s m s' : wf s -> recv s = ROk m s' -> wf s' /\ bytes_left s <> [].
Proof.
  intros W E. pose proof (proj1 (read_progress (S (length (bytes_left s)))) s W) as H. unfold recv in E. rewrite E in H. destruct H as [(c & Hc & Hl) W']. split; [exact W'|].
  rewrite Hc. destruct c; [cbn in Hl; lia|discriminate].
Qed.
Lemma recv_n_prefix a : forall b s l1 s1 l2 s2, (a <= b)%nat -> recv_n a s = ROk l1 s1 -> recv_n b s = ROk l2 s2 -> l1 = take a l2 /\ length l2 = b.
Proof.
  induction a as [|a IH]; intros b s l1 s1 l2 s2 Hab E1 E2.
  - injection E1 as <- _. split; [reflexivity|]. clear -E2. revert s l2 s2 E2. induction b as [|b IH]; intros s l2 s2 E; [injection E as <- _; reflexivity|].
    cbn [recv_n] in E. destruct (recv s) as [m s1| | |]; try discriminate. cbn [rbind] in E. destruct (recv_n b s1) as [l s3| | |] eqn:E2; try discriminate. injection E as <- _. cbn. f_equal. eapply IH, E2.
  - destruct b as [|b]; [lia|]. cbn [recv_n] in E1, E2. destruct (recv s) as [m s0| | |]; try discriminate. cbn [rbind] in E1, E2.
    destruct (recv_n a s0) as [m1 s3| | |] eqn:F1; try discriminate. destruct (recv_n b s0) as [m2 s4| | |] eqn:F2; try discriminate. injection E1 as <- _. injection E2 as <- _.
    destruct (IH b s0 _ _ _ _ ltac:(lia) F1 F2) as [-> Hl]. cbn. rewrite Hl. auto.
Qed.
(** nothing is received after the end *)
Lemma recv_n_end a : forall b s l1 s1 l2 s2, wf s -> recv_n a s = ROk l1 s1 -> bytes_left s1 = [] -> recv_n b s = ROk l2 s2 -> (b <= a)%nat.
Proof.
  induction a as [|a IH]; intros b s l1 s1 l2 s2 W E1 Hb E2.
  - injection E1 as _ <-. destruct b as [|b]; [lia|]. cbn [recv_n] in E2. destruct (recv s) as [m s0| | |] eqn:E; try discriminate. destruct (recv_step s m s0 W E) as [_ H]. contradiction.
  - destruct b as [|b]; [lia|]. cbn [recv_n] in E1, E2. destruct (recv s) as [m s0| | |] eqn:E; try discriminate. destruct (recv_step s m s0 W E) as [W0 _]. cbn [rbind] in E1, E2.
    destruct (recv_n a s0) as [m1 s3| | |] eqn:F1; try discriminate. destruct (recv_n b s0) as [m2 s4| | |] eqn:F2; try discriminate. injection E1 as _ <-. 
    specialize (IH b s0 _ _ _ _ W0 F1 Hb F2). lia.
Qed.

(** ** C171: reads through the client follow the master's history

    Full statement: every Get shows its key as of some point of the master's history, the snapshot in file order and then the
    stream; and that point never moves back.
    Missing: values damaged on the way (C58, C79), the cache New makes (C97), snapshots with other types (C84-C87).
    Here the stream is any list of messages that arrives after the snapshot in chunks of whole messages. *)
Definition history (l : list item) (stream : list msg) : list rmsg :=
  map (fun x => RMsg (sk_db x) (convert_to_message [bs "set"; sk_key x; match sk_val x with RdbSpec.VStr v => rstr_text v | _ => [] end])) (snapshot 0 None l) ++
  map (RMsg 0) (filter (fun m => skipped m = false) stream).
Theorem C171_reads_follow_master_partial range version l sum batches chunks t0 cs f0 acts f evs :
  is_range range -> length version = 9%nat -> Forall string_item l -> Forall item_small l -> unsplit l ->
  Forall2 (fun b c => b <> [] /\ wires b c /\ (length c <= 4096)%nat) batches chunks ->
  f_new range (new_world t0) cs = Some f0 -> synced cs (rdb_file version l sum) (new_rd chunks) -> fexec 0 acts f0 = Some (f, evs) ->
  exists point : list fevent -> nat, (forall a b, (point a <= point (a ++ b))%nat) /\
    forall l1 k r l2, evs = l1 ++ FGot k r :: l2 -> (point l1 <= length (history l (concat batches)))%nat /\
      r = match latest k (set_calls 0 (take (point l1) (history l (concat batches)))) with Some v => (text v, None) | None => ([], Some ErrKeyNil) end.
Proof.
  intros Hr Hv Hs Hl Hu Hb EN Hsy E. destruct (C128_exact_partial range 0 t0 cs f0 acts f evs EN E) as [H1 H2].
  destruct (H2 _ _ Hsy) as (n & live & Hn & Hh). destruct (C58_whole_replies_per_chunk_partial batches chunks Hb) as (s' & Ha & Hz).
  assert (W : wf (new_rd chunks)) by (unfold wf; cbn; lia). pose proof (recv_n_end _ _ _ _ _ _ _ W Ha Hz Hn) as Hle.
  destruct (recv_n_prefix _ _ _ _ _ _ _ Hle Hn Ha) as [Hlive _].
  assert (HL : fst (fst (load range 0 [rdb_file version l sum])) = map set_of (snapshot 0 None l)).
  { pose proof (C83_partial range version l sum 0 Hr Hv Hs Hl Hu) as HL. destruct (load range 0 _) as [[ms o] st]. destruct HL as [-> _]. reflexivity. }
  rewrite HL in Hh.
  assert (Hp : exists more, history l (concat batches) = handled evs ++ more).
  { exists (under_way (f_repl f) ++ map (RMsg 0) (filter (fun m => skipped m = false) (drop n (concat batches)))). unfold history. rewrite app_assoc, <- Hh, <- app_assoc, <- map_app, <- list.filter_app, Hlive, take_drop. reflexivity. }
  destruct Hp as [more Hp]. exists (fun a => length (handled a)). split; [intros a b; rewrite handled_app, app_length; lia|].
  intros l1 k r l2 El. assert (Hq : exists more', history l (concat batches) = handled l1 ++ more').
  { exists (handled (FGot k r :: l2) ++ more). rewrite Hp, El, handled_app, <- app_assoc. reflexivity. }
  destruct Hq as [more' Hq]. rewrite Hq. split; [rewrite app_length; lia|]. rewrite take_app. exact (H1 _ _ _ _ El).
Qed.
(** Otherwise Get can show a value the key never had: the stream sets it to hello, in two chunks. *)
Definition set_hello : msg := convert_to_message [bs "SET"; bs "k"; bs "hello"].
Theorem C171_reads_follow_master_refuted : exists ds cs acts, concat ds = serialize set_hello /\
  synced cs (rdb_file ver9 [] []) (new_rd ds) /\
  match f_new range_of (new_world 0) cs with
  | Some f0 => match fexec 0 acts f0 with
    | Some (f, evs) => exists l r, evs = l ++ [FGot (bs "k") r] /\ forall n,
        r <> match latest (bs "k") (set_calls 0 (take n (history [] [set_hello]))) with Some v => (text v, None) | None => ([], Some ErrKeyNil) end
    | None => False end
  | None => False end.
Proof.
  exists [take 26 (serialize set_hello); drop 26 (serialize set_hello)], (sync_ok (rdb_file ver9 [] []) [] ++ [take 26 (serialize set_hello); drop 26 (serialize set_hello)]),
    [FRepl ANew; FRepl AWait; FRepl AWait; FRepl (AMsg 0); FGet 0 (bs "k")].
  split; [vm_compute; reflexivity|]. split; [eexists; vm_compute; reflexivity|].
  match goal with |- match f_new ?a ?b ?c with _ => _ end => assert (H : match f_new a b c with Some f0 => match fexec 0 [FRepl ANew; FRepl AWait; FRepl AWait; FRepl (AMsg 0); FGet 0 (bs "k")] f0 with
      Some (f, evs) => exists l, evs = l ++ [FGot (bs "k") (bs "he" ++ [x00; x00; x00], None)] | None => False end | None => False end) by (vm_compute; eexists [_; _]; reflexivity);
    destruct (f_new a b c) as [f0|]; [|destruct H] end.
  destruct (fexec _ _ f0) as [[f evs]|]; [|destruct H]. destruct H as [l ->]. exists l, (bs "he" ++ [x00; x00; x00], None). split; [reflexivity|]. intros n.
  replace (history [] [set_hello]) with [RMsg 0 set_hello] by (vm_compute; reflexivity). destruct n as [|n]; cbn [take]; [vm_compute; discriminate|]. destruct n; vm_compute; discriminate.
Qed.
Example C171_nonvacuous :
  let cs := sync_ok (rdb_file ver9 [IKey (SRaw (bs "k")) (RdbSpec.VStr (SRaw (bs "old")))] []) [] ++ [serialize set_hello] in
  synced cs (rdb_file ver9 [IKey (SRaw (bs "k")) (RdbSpec.VStr (SRaw (bs "old")))] []) (new_rd [serialize set_hello]) /\
  match f_new range_of (new_world 0) cs with
  | Some f0 => match fexec 0 [FRepl ANew; FRepl (AMsg 0); FRepl ANew; FGet 0 (bs "k"); FRepl AWait; FRepl AWait; FRepl (AMsg 0); FGet 0 (bs "k")] f0 with
    | Some (f, evs) => nth_error evs 2 = Some (FGot (bs "k") (bs "old", None)) /\ list.last evs = Some (FGot (bs "k") (bs "hello", None))
    | None => False end
  | None => False end.
Proof.
  intros cs. split; [eexists; vm_compute; reflexivity|]. vm_compute. split; reflexivity.
Qed.
