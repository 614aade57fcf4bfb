(** * Props_Resp: the RESP protocol (redis/protocol.go, redis/conn.go) *)
From Verif Require Import Base RespModel RespSpec RespLib.

(** ** C54 *)
Theorem C54_integer_text_round_trip z : int64 z -> atoi (itoa z) = Some z.
Proof. intros H. apply atoi_itoa, int64_is, H. Qed.
Theorem C54_integer_text_injective a b : int64 a -> int64 b -> itoa a = itoa b -> a = b.
Proof. intros Ha Hb E. assert (Some a = Some b) by (rewrite <- (C54_integer_text_round_trip a Ha), <- (C54_integer_text_round_trip b Hb), E; reflexivity). congruence. Qed.
Example C54_nonvacuous : itoa (- 2 ^ 63) = bs "-9223372036854775808" /\ atoi (bs "-9223372036854775808") = Some (- 2 ^ 63).
Proof. vm_compute. auto. Qed.

(** ** C55 *)
Theorem C55_request_bytes args rest : let enc := send (convert_to_message args) in
  wire (MArr (map MBulk args)) enc /\
  (forall m s t, wire m s -> s ++ t = enc ++ rest -> m = MArr (map MBulk args) /\ s = enc /\ t = rest).
Proof.
  cbn zeta. assert (H : wire (MArr (map MBulk args)) (send (convert_to_message args))).
  { apply wire_serialize. unfold convert_to_message. apply encodable_arr, Forall_map, Forall_true. intros. exact I. }
  split; [exact H|]. intros m s t Hm E. destruct (proj1 wire_det _ _ Hm _ _ _ _ H E) as (-> & -> & ->). auto.
Qed.
Example C55_nonvacuous : send (convert_to_message [bs "SET"; [z2b 13; z2b 10; z2b 36]; []]) =
  bs "*3" ++ crlf ++ bs "$3" ++ crlf ++ bs "SET" ++ crlf ++ bs "$3" ++ crlf ++ [z2b 13; z2b 10; z2b 36] ++ crlf ++ bs "$0" ++ crlf ++ crlf.
Proof. vm_compute. reflexivity. Qed.

(** ** C56 *)
Theorem C56_prefix_free m1 m2 s1 t : wire m1 s1 -> wire m2 (s1 ++ t) -> m1 = m2 /\ t = [].
Proof.
  intros H1 H2. destruct (proj1 wire_det _ _ H1 _ _ t [] H2) as (-> & _ & ->); [rewrite app_nil_r; reflexivity|auto].
Qed.
Theorem C56_every_message_encoded m : encodable m -> wire m (serialize m).
Proof. apply wire_serialize. Qed.
Theorem C56_serialize_injective m1 m2 : encodable m1 -> encodable m2 -> serialize m1 = serialize m2 -> m1 = m2.
Proof. intros H1 H2 E. apply (C56_prefix_free m1 m2 (serialize m1) []); [apply wire_serialize, H1|rewrite app_nil_r, E; apply wire_serialize, H2]. Qed.
Example C56_nonvacuous : encodable (MArr [MNil; MArr []; MInt (-7); MError (bs "ERR x")]).
Proof.
  assert (Hl : one_line (bs "ERR x")). { split; intros H; apply (proj1 (elem_of_list_In _ _)) in H; vm_compute in H; intuition discriminate. }
  cbn. unfold int64. repeat split; try lia; apply Hl.
Qed.

(** ** C57 *)
Theorem C57_buffered_reply m enc rest src :
  wire m enc -> Z.of_nat (length enc) <= 2 ^ 48 -> recv (Rd (enc ++ rest) src) = ROk m (Rd rest src).
Proof.
  intros Hm Hf. apply (proj1 read_wire m enc Hm); [|exact Hf]. unfold bytes_left. cbn. rewrite !app_length. lia.
Qed.
Example C57_nonvacuous : recv (Rd (bs "*2" ++ crlf ++ bs "$-1" ++ crlf ++ bs "*1" ++ crlf ++ bs ":007" ++ crlf ++ bs "junk") []) = ROk (MArr [MNil; MArr [MInt 7]]) (Rd (bs "junk") []).
Proof. vm_compute. reflexivity. Qed.

(** ** C58
    Full statement: [forall m enc cs1 cs2, wire m enc -> concat cs1 = concat cs2 -> exists a s1 s2,
    recv (new_rd cs1) = ROk a s1 /\ recv (new_rd cs2) = ROk a s2]. *)
Definition answer (r : res msg) : option msg := match r with ROk m _ => Some m | _ => None end.
Theorem C58_chunking_changes_reply_refuted : exists enc cs1 cs2,
  wire (MBulk (bs "hello")) enc /\ concat cs1 = enc /\ concat cs2 = enc /\
  answer (recv (new_rd cs1)) = Some (MBulk (bs "hello")) /\
  answer (recv (new_rd cs2)) = Some (MBulk (bs "he" ++ [x00; x00; x00])).
Proof.
  exists (serialize (MBulk (bs "hello"))), [serialize (MBulk (bs "hello"))], [bs "$5" ++ crlf ++ bs "he"; bs "llo" ++ crlf].
  split; [apply wire_serialize; exact I|]. vm_compute. auto.
Qed.
(** A bulk string longer than what is left in the 4096 byte buffer is cut even when it arrives at once. *)
Theorem C58_large_bulk_refuted : exists s t, s <> t /\ answer (recv (new_rd [serialize (MBulk s)])) = Some (MBulk t).
Proof.
  exists (repeat (z2b 97) 5000), (repeat (z2b 97) (Z.to_nat 4089) ++ repeat x00 (Z.to_nat 911)). split.
  - intros H. apply (f_equal (fun l => nth 4999 l x01)) in H. vm_compute in H. discriminate.
  - vm_compute. reflexivity.
Qed.
(** Independent of the chunking are the replies without bulk strings of two or more bytes and without
    overlong lines: integers, status and error lines, nil, empty and one byte strings, arrays of these. *)
Theorem C58_short_replies_any_chunking_partial m rest cs : steady m -> concat cs = serialize m ++ rest ->
  exists s', recv (new_rd cs) = ROk m s' /\ bytes_left s' = rest.
Proof.
  intros Hm E. destruct (read_steady m Hm (S (length (bytes_left (new_rd cs)))) (new_rd cs) rest E) as (s' & H1 & H2 & _).
  - unfold wf. cbn. lia.
  - unfold bytes_left. cbn. rewrite E, app_length. lia.
  - exists s'. auto.
Qed.
Example C58_nonvacuous : answer (recv (new_rd [bs "*2"; []; [CR]; LF :: bs "$"; bs "1" ++ crlf; bs "x"; crlf ++ bs ":-1"; bs "2" ++ crlf])) = Some (MArr [MBulk (bs "x"); MInt (-12)]).
Proof. vm_compute. reflexivity. Qed.
Lemma recv_fill c cs : c <> [] -> (length c <= bufsize)%nat -> recv (Rd [] (c :: cs)) = recv (Rd c cs).
Proof.
  intros Hne Hl. unfold recv. replace (length (bytes_left (Rd [] (c :: cs)))) with (length (bytes_left (Rd c cs))) by reflexivity. cbn [read_msg].
  replace (read_byte (Rd [] (c :: cs))) with (read_byte (Rd c cs)); [reflexivity|]. unfold read_byte. cbn [r_buf r_src]. destruct c as [|b c]; [congruence|]. cbn [src_read].
  rewrite take_ge, drop_ge by exact Hl. reflexivity.
Qed.
(** All well-formed replies are read right when every chunk is a sequence of whole replies of at most 4096 bytes. *)
Theorem C58_whole_replies_per_chunk_partial (batches : list (list msg)) (chunks : list gostr) :
  Forall2 (fun b c => b <> [] /\ wires b c /\ (length c <= 4096)%nat) batches chunks ->
  exists s', recv_n (length (concat batches)) (new_rd chunks) = ROk (concat batches) s' /\ bytes_left s' = [].
Proof.
  assert (Hb : forall b c, wires b c -> forall n ms src k s', (length c <= 4096)%nat ->
     recv_n k (Rd [] src) = ROk ms s' -> n = (length b + k)%nat -> recv_n n (Rd c src) = ROk (b ++ ms) s').
  { intros b c Hw. induction Hw as [|m b s t Hm Hw IH]; intros n ms src k s' Hl Hk ->; [exact Hk|]. cbn [length plus recv_n]. rewrite app_length in Hl.
    rewrite (C57_buffered_reply m s t src Hm) by lia. cbn [rbind]. rewrite (IH (length b + k)%nat ms src k s'); auto; lia. }
  assert (Hz : Z.of_nat 4096 = Z.of_nat bufsize) by (rewrite bufsize_val; reflexivity).
  intros H. induction H as [|b c batches chunks (Hne & Hw & Hl) _ IH]; [exists (new_rd []); auto|].
  destruct IH as (s' & IH & Hs'). exists s'. split; [|exact Hs']. cbn [concat]. rewrite app_length.
  assert (Hc : c <> []). { intros ->. inversion Hw as [|m l s t Hm Hw' E1 E2]; [congruence|]. apply app_eq_nil in E2 as [-> _]. apply wire_long in Hm. cbn in Hm. lia. }
  pose proof (Hb b c Hw _ _ _ _ _ Hl IH eq_refl) as H. rewrite <- H. unfold new_rd.
  destruct b as [|m b]; [congruence|]. cbn [length plus recv_n]. rewrite recv_fill by (auto; lia). reflexivity.
Qed.

(** ** C59
    Full statement: [forall cs, recv (new_rd cs) <> RPanic]. *)
Theorem C59_malformed_reply_panics_refuted : exists cs, recv (new_rd cs) = RPanic.
Proof. exists [bs "$-2" ++ crlf]. vm_compute. reflexivity. Qed.
(** The only cause is a bulk length below -1 or above what [make] accepts. *)
Theorem C59_panic_needs_bad_length_partial s : (length (r_buf s) <= bufsize)%nat -> recv s = RPanic ->
  exists a L b n, bytes_left s = a ++ (z2b 36 :: L) ++ b /\ LF ∉ L /\ atoi L = Some n /\ (n < -1 \/ n > 2 ^ 48).
Proof.
  intros Hw E.
  (* search the finitely many decompositions *)
  set (S0 := bytes_left s). 
  set (bad := fun i j => match drop i S0 with c :: t => Byte.eqb c (z2b 36) && (match lf_index (take j t) with None => true | _ => false end) && (match atoi (take j t) with Some n => (n <? -1) || (2 ^ 48 <? n) | None => false end) | [] => false end).
  destruct (existsb (fun i => existsb (bad i) (seq 0 (S (length S0)))) (seq 0 (S (length S0)))) eqn:Ex.
  - apply existsb_exists in Ex as (i & _ & Ex). apply existsb_exists in Ex as (j & _ & Ex). unfold bad in Ex. destruct (drop i S0) as [|c t] eqn:Ed; [discriminate|].
    apply andb_prop in Ex as [Ex E3]. apply andb_prop in Ex as [E1 E2]. apply byte_eqb_eq in E1. subst c. destruct (atoi (take j t)) as [n|] eqn:En; [|discriminate].
    exists (take i S0), (take j t), (drop j t), n. split; [|split; [|split; [exact En|]]].
    + rewrite <- (take_drop i S0) at 1. rewrite Ed. cbn [app]. rewrite take_drop. reflexivity.
    + apply lf_index_none. destruct (lf_index (take j t)); [discriminate|reflexivity].
    + lia.
  - exfalso. refine (proj1 (read_no_panic _) s Hw _ E). intros a L b n El HL Hn. fold S0 in El.
    destruct (Z.le_gt_cases (-1) n) as [H1|H1]; [destruct (Z.le_gt_cases n (2 ^ 48)) as [H2|H2]; [lia|]|];
    (exfalso; assert (Hx : existsb (fun i => existsb (bad i) (seq 0 (S (length S0)))) (seq 0 (S (length S0))) = true); [|congruence];
     assert (Hlen : length S0 = (length a + S (length L + length b))%nat) by (rewrite El, !app_length; cbn; lia);
     apply existsb_exists; exists (length a); split; [apply in_seq; lia|]; apply existsb_exists; exists (length L); split; [apply in_seq; lia|];
     unfold bad; rewrite El, drop_app; cbn [app]; rewrite take_app, Hn; apply lf_index_none in HL; rewrite HL; replace (Byte.eqb (z2b 36) (z2b 36)) with true by reflexivity; lia).
Qed.
Theorem C59_no_bulk_header_no_panic_partial cs : z2b 36 ∉ concat cs -> recv (new_rd cs) <> RPanic.
Proof.
  intros H E. destruct (C59_panic_needs_bad_length_partial (new_rd cs)) as (a & L & b & n & El & _); [cbn; pose proof bufsize_pos; lia|exact E|].
  apply H. unfold bytes_left in El. cbn in El. rewrite El. apply elem_of_app. right. left.
Qed.
Example C59_nonvacuous : match recv (new_rd [bs "*1" ++ crlf ++ bs "?"]) with RErr (EProto b) _ => Byte.eqb b (z2b 63) | _ => false end = true.
Proof. vm_compute. reflexivity. Qed.

(** ** C60
    Full statement: [forall m p q cs, wire m (p ++ q) -> q <> [] -> concat cs = p -> exists e s', recv (new_rd cs) = RErr e s']. *)
Theorem C60_truncated_integer_refuted : exists p q, q <> [] /\ wire (MInt 123) (p ++ q) /\ answer (recv (new_rd [p])) = Some (MInt 12).
Proof.
  exists (bs ":12"), (bs "3" ++ crlf). split; [discriminate|]. split; [|vm_compute; reflexivity]. change (wire (MInt 123) (serialize (MInt 123))).
  apply wire_serialize. cbn. unfold int64. lia.
Qed.
(** An empty array needs no further byte, so "*0" alone is taken for one. *)
Theorem C60_truncated_array_refuted : exists p q, q <> [] /\ wire (MArr [MNil]) (p ++ q) /\ answer (recv (new_rd [p])) = Some (MArr []).
Proof.
  exists (bs "*0"), (bs "1" ++ crlf ++ bs "$-1" ++ crlf). split; [discriminate|]. split; [|vm_compute; reflexivity].
  apply (w_arr (bs "01") [MNil] (bs "$-1" ++ crlf)).
  - split; [split; [discriminate|repeat constructor; vm_compute; congruence]|reflexivity].
  - rewrite <- (app_nil_r (bs "$-1" ++ crlf)). repeat constructor.
Qed.
(** Bulk strings and non-empty arrays of them, however nested, in one chunk cut before the last byte but one. *)
Theorem C60_truncated_bulks_partial m p q : bulky m -> serialize m = p ++ q -> (2 <= length q)%nat ->
  (length p <= 4096)%nat -> Z.of_nat (length (serialize m)) <= 2 ^ 48 -> exists e s', recv (new_rd [p]) = RErr e s'.
Proof.
  intros Hm E Hq Hp Hf. assert (Hz : Z.of_nat 4096 = Z.of_nat bufsize) by (rewrite bufsize_val; reflexivity).
  destruct p as [|b p]; [vm_compute; eauto|]. unfold new_rd. rewrite recv_fill by (try discriminate; lia).
  destruct (read_cut m Hm (S (length (bytes_left (Rd (b :: p) [])))) (b :: p) q (eq_sym E)) as [H|[H _]]; auto; try lia.
  - destruct q; [cbn in Hq; lia|discriminate].
  - unfold bytes_left. cbn. rewrite app_nil_r. lia.
Qed.
Example C60_nonvacuous : bulky (MArr [MBulk (bs "a"); MArr [MBulk (bs "xyz")]]) /\
  match recv (new_rd [bs "*2" ++ crlf ++ bs "$1" ++ crlf ++ bs "a" ++ crlf ++ bs "*1" ++ crlf ++ bs "$3" ++ crlf ++ bs "xy"]) with RErr EEof _ => true | _ => false end = true.
Proof. split; [cbn; repeat split; discriminate|vm_compute; reflexivity]. Qed.

(** ** C61 *)
Theorem C61_receive_terminates s : (length (r_buf s) <= bufsize)%nat ->
  match recv s with
  | ROk _ s' => exists c, bytes_left s = c ++ bytes_left s' /\ (2 <= length c)%nat
  | RErr e s' => exists c, bytes_left s = c ++ bytes_left s' /\ (c <> [] \/ e = EEof)
  | RPanic => True
  | RFuel => False
  end.
Proof.
  intros Hw. pose proof (proj1 (read_progress (S (length (bytes_left s)))) s Hw) as H. unfold recv. destruct (read_msg (S (length (bytes_left s))) s).
  - apply H.
  - destruct H as [(c & H1 & H2) _]. exists c. split; [exact H1|]. destruct e; [right; reflexivity|left; apply H2; discriminate..].
  - exact I.
  - lia.
Qed.
Example C61_nonvacuous : match recv (new_rd [bs "*999999999" ++ crlf ++ bs "*1" ++ crlf ++ bs ":1" ++ crlf]) with RErr EEof s' => bytes_left s' = [] | _ => False end.
Proof. vm_compute. reflexivity. Qed.

(** ** C62 *)
Lemma copy_bytes_all d : forall s rest acc, bytes_left s = d ++ rest -> wf s ->
  exists s', copy_bytes (length d) acc s = (acc ++ d, ROk tt s') /\ bytes_left s' = rest /\ wf s'.
Proof.
  induction d as [|b d IH]; intros s rest acc E Hw.
  - exists s. rewrite app_nil_r. auto.
  - pose proof (read_byte_spec s Hw) as H. rewrite E in H. destruct H as (s1 & H1 & H2 & W1). cbn [length copy_bytes]. rewrite H1.
    destruct (IH s1 rest (acc ++ [b]) H2 W1) as (s' & H3 & H4). exists s'. rewrite H3, <- app_assoc. auto.
Qed.
Lemma copy_bytes_cut d : forall n s acc, bytes_left s = d -> (length d < n)%nat -> wf s ->
  exists s', copy_bytes n acc s = (acc ++ d, RErr EEof s').
Proof.
  induction d as [|b d IH]; intros [|n] s acc E Hn Hw; try (cbn in Hn; lia).
  - pose proof (read_byte_spec s Hw) as H. rewrite E in H. destruct H as (s1 & H1 & _). cbn [copy_bytes]. rewrite H1, app_nil_r. eauto.
  - pose proof (read_byte_spec s Hw) as H. rewrite E in H. destruct H as (s1 & H1 & H2 & W1). cbn [copy_bytes]. rewrite H1.
    cbn in Hn. destruct (IH n s1 (acc ++ [b]) H2 ltac:(lia) W1) as (s' & H3). exists s'. rewrite H3, <- app_assoc. reflexivity.
Qed.
Lemma rww_bulk s n rest : bytes_left s = bs "$" ++ itoa n ++ crlf ++ rest -> int64 n -> wf s ->
  exists s2, bytes_left s2 = rest /\ wf s2 /\
   read_with_writer s = match copy_bytes (Z.to_nat n) [] s2 with
                    | (out, ROk _ s3) => (out, ROk (z2b 36, n) s3)
                    | (out, RErr e s3) => (out, RErr e s3)
                    | (out, RPanic) => (out, RPanic)
                    | (out, RFuel) => (out, RFuel)
                    end.
Proof.
  intros E Hn Hw. pose proof (read_byte_spec s Hw) as H. rewrite E in H. change (bs "$" ++ itoa n ++ crlf ++ rest) with (z2b 36 :: itoa n ++ crlf ++ rest) in H. cbn match in H. destruct H as (s1 & H1 & H2 & W1).
  destruct (read_num_any s1 n rest H2 Hn W1) as (s2 & H3 & H4 & W2). exists s2. split; [exact H4|]. split; [exact W2|].
  unfold read_with_writer. rewrite H1. replace (Byte.eqb (z2b 36) (z2b 36)) with true by reflexivity. rewrite H3. reflexivity.
Qed.
Theorem C62_snapshot_byte_exact payload rest cs : int64 (zlen payload) ->
  concat cs = bs "$" ++ itoa (zlen payload) ++ crlf ++ payload ++ rest ->
  exists s', read_with_writer (new_rd cs) = (payload, ROk (z2b 36, zlen payload) s') /\ bytes_left s' = rest.
Proof.
  intros Hn E. destruct (rww_bulk (new_rd cs) (zlen payload) (payload ++ rest) E Hn) as (s2 & H2 & W2 & ->); [unfold wf; cbn; lia|].
  replace (Z.to_nat (zlen payload)) with (length payload) by (unfold zlen; lia). destruct (copy_bytes_all payload s2 rest [] H2 W2) as (s' & -> & H3 & _). exists s'. auto.
Qed.
Theorem C62_truncated_snapshot_is_error n p cs : int64 n -> zlen p < n ->
  concat cs = bs "$" ++ itoa n ++ crlf ++ p -> exists s', read_with_writer (new_rd cs) = (p, RErr EEof s').
Proof.
  intros Hn Hp E. destruct (rww_bulk (new_rd cs) n p E Hn) as (s2 & H2 & W2 & ->); [unfold wf; cbn; lia|].
  destruct (copy_bytes_cut p (Z.to_nat n) s2 [] H2 ltac:(unfold zlen in Hp; lia) W2) as (s' & ->). exists s'. reflexivity.
Qed.
Example C62_nonvacuous : match read_with_writer (new_rd [bs "$5"; crlf ++ bs "ab"; []; [x00]; bs "cdREST"]) with
  | (out, ROk r s') => (out, r, bytes_left s') | (out, _) => (out, (x00, 0), []) end = (bs "ab" ++ [x00] ++ bs "cd", (z2b 36, 5), bs "REST").
Proof. vm_compute. reflexivity. Qed.

(** ** C63 *)
Theorem C63_pipelined_in_order ms encs rest src :
  Forall2 (fun m e => wire m e /\ Z.of_nat (length e) <= 2 ^ 48) ms encs ->
  recv_n (length ms) (Rd (concat encs ++ rest) src) = ROk ms (Rd rest src).
Proof.
  induction 1 as [|m e ms encs [Hm Hl] _ IH]; [reflexivity|]. cbn [length recv_n concat]. rewrite <- app_assoc, (C57_buffered_reply m e _ src Hm Hl). cbn [rbind]. rewrite IH. reflexivity.
Qed.
Example C63_nonvacuous : match recv_n 3 (new_rd [bs "+OK" ++ crlf ++ bs ":3" ++ crlf ++ bs "$2" ++ crlf ++ bs "hi" ++ crlf]) with ROk l _ => l | _ => [] end = [MSimple (bs "OK"); MInt 3; MBulk (bs "hi")].
Proof. vm_compute. reflexivity. Qed.
