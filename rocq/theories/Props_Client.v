(** * Props_Client: remote commands (redis/command.go, redis/redis.go) *)
From Verif Require Import Base GoFloat RespModel RespSpec RespLib Props_Resp ClientModel.

(** What a command returns when the next reply on its connection is [m]. *)
Lemma exec_reply q c m s : recv (cn_in c) = ROk m s ->
  exec q c = CRet (fst (decode (kind_of q) m)) (snd (decode (kind_of q) m)) (Conn (cn_out c ++ send (convert_to_message (request q))) s).
Proof. intros E. unfold exec. rewrite E. destruct (decode (kind_of q) m). reflexivity. Qed.

(** ** C64 *)
Theorem C64_get_decodes k c m s : recv (cn_in c) = ROk m s -> exists v e c', exec (QGet k) c = CRet v e c' /\ cn_in c' = s /\
  match m with
  | MBulk t => v = VStr t /\ e = None
  | MNil => e <> None
  | MError t => e = Some (XText t)
  | _ => e = None
  end.
Proof. intros E. rewrite (exec_reply _ _ _ _ E). do 3 eexists. split; [reflexivity|]. split; [reflexivity|]. destruct m; cbn; auto; discriminate. Qed.
Theorem C64_get_reports_broken_replies k c e s : recv (cn_in c) = RErr e s -> exists v c', exec (QGet k) c = CRet v (Some (XRecv e)) c'.
Proof. intros E. unfold exec. rewrite E. eauto. Qed.
Definition wired (b : gostr) : conn := Conn [] (new_rd [b]).
Example C64_nonvacuous : match exec (QGet (bs "k")) (wired (bs "$2" ++ crlf ++ [CR; x00] ++ crlf)) with CRet v e c => (v, e, cn_out c) | CPanic => (VInt 0, None, []) end =
  (VStr [CR; x00], None, bs "*2" ++ crlf ++ bs "$3" ++ crlf ++ bs "get" ++ crlf ++ bs "$1" ++ crlf ++ bs "k" ++ crlf).
Proof. vm_compute. reflexivity. Qed.

(** ** C65
    Full statement: [recv (cn_in c) = ROk (MSimple (bs "OK")) s -> exists c', exec (QSet k v) c = CRet (VStr (bs "OK")) None c']. *)
Definition returned (o : outcome) : option (cval * option cerr) := match o with CRet v e _ => Some (v, e) | CPanic => None end.
Theorem C65_set_ok_refuted : exists k v c s, recv (cn_in c) = ROk (MSimple (bs "OK")) s /\ returned (exec (QSet k v) c) = Some (VStr [], None).
Proof. exists (bs "k"), (bs "v"), (wired (bs "+OK" ++ crlf)), (Rd [] []). vm_compute. auto. Qed.
(** The status text is never returned; the error is nil exactly on an OK reply. *)
Theorem C65_set_error_exact_partial q c m s : kind_of q = KOK -> recv (cn_in c) = ROk m s ->
  exists e c', exec q c = CRet (VStr []) e c' /\ (e = None <-> m = MSimple (bs "OK")).
Proof.
  intros Hk E. rewrite (exec_reply _ _ _ _ E), Hk.
  assert (Hb : bool_decide (@nil byte = bs "OK") = false) by reflexivity.
  destruct m as [|t|t|t|z|l]; cbn [decode parse zero_val fst snd]; rewrite ?Hb.
  1,2,4,5,6: (do 2 eexists; split; [reflexivity|]; split; discriminate).
  destruct (bool_decide (t = bs "OK")) eqn:Et; (do 2 eexists; split; [reflexivity|]).
  - apply bool_decide_eq_true in Et as ->. tauto.
  - apply bool_decide_eq_false in Et. split; [discriminate|congruence].
Qed.
Example C65_nonvacuous : returned (exec (QSelect 3) (wired (bs "-ERR index" ++ crlf))) = Some (VStr [], Some (XText (bs "ERR index"))).
Proof. vm_compute. reflexivity. Qed.

(** ** C66
    Full statement: [recv (cn_in c) = ROk (MInt n) s -> exists v' c', exec (QSetNX k v) c = CRet v' None c']. *)
Theorem C66_setnx_refuted : exists k v c s, recv (cn_in c) = ROk (MInt 1) s /\ returned (exec (QSetNX k v) c) = Some (VStr [], Some (XText [])).
Proof. exists (bs "k"), (bs "v"), (wired (bs ":1" ++ crlf)), (Rd [] []). vm_compute. auto. Qed.
(** Every integer reply gives the same result, an error with an empty text: stored and not stored cannot be told apart. *)
Theorem C66_setnx_hides_outcome_partial k v c n s : recv (cn_in c) = ROk (MInt n) s ->
  returned (exec (QSetNX k v) c) = Some (VStr [], Some (XText [])).
Proof. intros E. rewrite (exec_reply _ _ _ _ E). reflexivity. Qed.

(** Every reply, exactly: no reply gives a value, and the only reply without an error is a status OK, which SETNX never gets. *)
Theorem C66_exact_partial k v c m s : recv (cn_in c) = ROk m s ->
  exists e, returned (exec (QSetNX k v) c) = Some (VStr [], e) /\ (e = None <-> m = MSimple (bs "OK")).
Proof. intros E. destruct (C65_set_error_exact_partial (QSetNX k v) c m s eq_refl E) as (e & c' & E' & He). exists e. rewrite E'. split; [reflexivity|exact He]. Qed.
Example C66_nonvacuous : recv (cn_in (wired (bs ":0" ++ crlf))) = ROk (MInt 0) (Rd [] []) /\ returned (exec (QSetNX (bs "k") (bs "v")) (wired (bs "+OK" ++ crlf))) = Some (VStr [], None).
Proof. vm_compute. auto. Qed.

(** ** C67
    The command each method is named after, from the Redis command reference; names are compared
    without regard to case. Full statement: [forall q, same_command (request q) (syntax q)]. *)
Fixpoint alternating (kv : list (gostr * gostr)) : list gostr := match kv with [] => [] | (k, v) :: r => k :: v :: alternating r end.
Definition syntax (q : rcall) : list gostr :=
  match q with
  | QSet k v => [bs "SET"; k; v]
  | QSelect i => [bs "SELECT"; itoa i]
  | QSetNX k v => [bs "SETNX"; k; v]
  | QSetEX k v n => [bs "SETEX"; k; itoa n; v]
  | QPSetEX k v n => [bs "PSETEX"; k; itoa n; v]
  | QGet k => [bs "GET"; k]
  | QGetSet k v => [bs "GETSET"; k; v]
  | QStrLen k => [bs "STRLEN"; k]
  | QAppend k v => [bs "APPEND"; k; v]
  | QSetRange k off v => [bs "SETRANGE"; k; itoa off; v]
  | QGetRange k a b => [bs "GETRANGE"; k; itoa a; itoa b]
  | QIncr k => [bs "INCR"; k]
  | QIncrBy k n => [bs "INCRBY"; k; itoa n]
  | QIncrByFloat k f => [bs "INCRBYFLOAT"; k; format_float f]
  | QDecr k => [bs "DECR"; k]
  | QDecrBy k n => [bs "DECRBY"; k; itoa n]
  | QMSet kv => bs "MSET" :: alternating kv
  | QMSetNX kv => bs "MSETNX" :: alternating kv
  | QMGet ks => bs "MGET" :: ks
  end.
Definition same_command (a b : list gostr) : Prop :=
  match a, b with x :: r, y :: t => to_lower x = to_lower y /\ r = t | _, _ => False end.
(** the arguments a server decodes from what the method wrote *)
Definition wrote (q : rcall) (b : gostr) (args : list gostr) : Prop :=
  match exec q (wired b) with CRet _ _ c => wire (MArr (map MBulk args)) (cn_out c) | CPanic => False end.
Theorem C67_setex_psetex_incrby_refuted : 
  wrote (QSetEX (bs "k") (bs "v") 5) (bs "+OK" ++ crlf) [bs "SetNX"; bs "k"; bs "v"; bs "5"] /\
  wrote (QPSetEX (bs "k") (bs "v") 5) (bs "+OK" ++ crlf) [bs "SetNX"; bs "k"; bs "v"; bs "5"] /\
  wrote (QIncrBy (bs "k") 5) (bs ":5" ++ crlf) [bs "Incr"; bs "k"; bs "5"].
Proof.
  assert (H : forall q b args m s, recv (new_rd [b]) = ROk m s -> request q = args -> wrote q b args).
  { intros q b args m s E <-. unfold wrote. rewrite (exec_reply q (wired b) m s E). cbn [cn_out app wired]. apply C55_request_bytes. exact []. }
  split; [|split]; (eapply H; [vm_compute; reflexivity|vm_compute; reflexivity]).
Qed.
Theorem C67_setex_never_right_refuted : forall k v n, ~ same_command (request (QSetEX k v n)) (syntax (QSetEX k v n)) /\
  ~ same_command (request (QPSetEX k v n)) (syntax (QPSetEX k v n)) /\ ~ same_command (request (QIncrBy k n)) (syntax (QIncrBy k n)).
Proof. intros k v n. cbn [request syntax same_command]. repeat split; intros [H _]; vm_compute in H; discriminate. Qed.
Theorem C67_other_requests_partial q c v e c' : exec q c = CRet v e c' ->
  match q with QSetEX _ _ _ | QPSetEX _ _ _ | QIncrBy _ _ => False | _ => True end ->
  exists args enc, cn_out c' = cn_out c ++ enc /\ wire (MArr (map MBulk args)) enc /\ same_command args (syntax q).
Proof.
  intros E Hq. exists (request q), (send (convert_to_message (request q))). split; [|split].
  - unfold exec in E. destruct (recv (cn_in c)) as [m s|x s| |]; [destruct (decode (kind_of q) m)| | |]; try discriminate; injection E as _ _ <-; reflexivity.
  - apply (proj1 (C55_request_bytes (request q) [])).
  - assert (Hf : forall kv, flat kv = alternating kv). { intros kv. induction kv as [|[k w] r IH]; [reflexivity|]. unfold flat in *. cbn. rewrite IH. reflexivity. }
    destruct q; try contradiction; (split; [vm_compute; reflexivity|try reflexivity]); apply Hf.
Qed.
(** The methods that send what they are named after, exactly. *)
Theorem C67_exact_partial q c v e c' : exec q c = CRet v e c' ->
  (exists args enc, cn_out c' = cn_out c ++ enc /\ wire (MArr (map MBulk args)) enc /\ same_command args (syntax q)) <->
  (match q with QSetEX _ _ _ | QPSetEX _ _ _ | QIncrBy _ _ => False | _ => True end).
Proof.
  intros E. split; [|apply (C67_other_requests_partial q c v e c' E)].
  intros (args & enc & Ho & Hw & Hs).
  assert (Hc : cn_out c' = cn_out c ++ send (convert_to_message (request q))).
  { unfold exec in E. destruct (recv (cn_in c)) as [m s|x s| |]; [destruct (decode (kind_of q) m)| | |]; try discriminate; injection E as _ _ <-; reflexivity. }
  rewrite Hc in Ho. apply app_inv_head in Ho. subst enc.
  assert (args = request q).
  { pose proof (proj1 (C55_request_bytes (request q) [])) as Hr. destruct (C56_prefix_free _ _ _ [] Hw ltac:(rewrite app_nil_r; exact Hr)) as [Hm _]. injection Hm as Hm.
    clear -Hm. revert Hm. generalize (request q) as b. induction args as [|a r IH]; intros [|y b]; try discriminate; [reflexivity|]. cbn. intros [= -> H]. f_equal. apply IH, H. }
  subst args.
  destruct q as [| | |k w n|k w n| | | | | | | |k n| | | | | |]; try exact I; destruct Hs as [H _]; vm_compute in H; discriminate.
Qed.
Example C67_nonvacuous : request (QDecrBy (bs "k") (-3)) = [bs "DecrBy"; bs "k"; bs "-3"] /\
  wrote (QMSet [(bs "a", bs "1"); (bs "b", bs "2")]) (bs "+OK" ++ crlf) [bs "MSet"; bs "a"; bs "1"; bs "b"; bs "2"].
Proof. split; [vm_compute; reflexivity|]. unfold wrote. rewrite (exec_reply _ (wired (bs "+OK" ++ crlf)) (MSimple (bs "OK")) (Rd [] [])) by (vm_compute; reflexivity). apply (C55_request_bytes [bs "MSet"; bs "a"; bs "1"; bs "b"; bs "2"] []). Qed.

(** ** C68
    Full statement: for every reply whose text parses as a float f, IncrByFloat returns (f, nil). *)
Theorem C68_incrbyfloat_refuted : exists k f c s, recv (cn_in c) = ROk (MBulk (bs "3.5")) s /\
  parse_float (bs "3.5") = Some (S754_finite false 7881299347898368 (-51)) /\
  returned (exec (QIncrByFloat k f) c) = Some (VFloat (S754_zero false), None).
Proof. exists (bs "k"), (S754_zero false), (wired (bs "$3" ++ crlf ++ bs "3.5" ++ crlf)), (Rd [] []). vm_compute. auto. Qed.
(** Whatever the server's float is, zero is returned without an error. *)
Theorem C68_incrbyfloat_zero_partial k x c m f s : recv (cn_in c) = ROk m s -> m <> MNil -> (forall t, m <> MError t) ->
  parse_float (msg_string m) = Some f -> returned (exec (QIncrByFloat k x) c) = Some (VFloat (S754_zero false), None).
Proof.
  intros E H1 H2 Hp. rewrite (exec_reply _ _ _ _ E). cbn [returned kind_of].
  destruct m; try congruence; try (exfalso; eapply H2; reflexivity); cbn [decode parse]; rewrite Hp; reflexivity.
Qed.
Theorem C68_errors_reported_partial k x c m s : recv (cn_in c) = ROk m s -> match m with
  | MNil => exists e, returned (exec (QIncrByFloat k x) c) = Some (VFloat (S754_zero false), Some e)
  | MError t => returned (exec (QIncrByFloat k x) c) = Some (VFloat (S754_zero false), Some (XText t))
  | _ => True end.
Proof. intros E. rewrite (exec_reply _ _ _ _ E). destruct m; try exact I; cbn; eauto. Qed.
(** Every reply, exactly: the error is nil unless the reply is nil or an error, and no reply gives a number: the value is
    always zero or, when the text is no number, what ParseFloat leaves. *)
Theorem C68_exact_partial k x c m s : recv (cn_in c) = ROk m s ->
  exists v e, returned (exec (QIncrByFloat k x) c) = Some (VFloat v, e) /\
  (v = S754_zero false \/ exists g, v = S754_infinity g) /\ (v <> S754_zero false -> parse_float (msg_string m) = None) /\
  (e = None <-> m <> MNil /\ forall t, m <> MError t).
Proof.
  intros E. rewrite (exec_reply _ _ _ _ E). cbn [returned kind_of].
  assert (G : forall t, parse_float t = None -> parse_float_val t = S754_zero false \/ exists g, parse_float_val t = S754_infinity g).
  { intros t. unfold parse_float_val, parse_float, read_float. destruct (special_float t); [discriminate|]. destruct (read_float_full t) as [[]|]; try discriminate; eauto. }
  destruct m; cbn [decode parse zero_val]; try destruct (parse_float _) as [f|] eqn:Ef; do 2 eexists; (split; [reflexivity|]);
    (split; [first [left; reflexivity|apply G; assumption]|]); (split; [congruence|]); (split; [|try (intros [A B]; solve [congruence|exfalso; eapply B; reflexivity])]);
    try discriminate; intros _; split; congruence.
Qed.

(** ** C69
    Full statement: [kind_of q = KInt -> recv (cn_in c) = ROk m s -> match m with MInt n => returned (exec q c) = Some (VInt n, None)
    | _ => exists v e, returned (exec q c) = Some (v, Some e) end]. *)
Theorem C69_other_replies_silent_refuted : exists c s, recv (cn_in c) = ROk (MBulk (bs "7")) s /\ returned (exec (QIncr (bs "k")) c) = Some (VInt 0, None).
Proof. exists (wired (bs "$1" ++ crlf ++ bs "7" ++ crlf)), (Rd [] []). vm_compute. auto. Qed.
Theorem C69_integer_replies_partial q c m s : kind_of q = KInt -> recv (cn_in c) = ROk m s ->
  match m with
  | MInt n => returned (exec q c) = Some (VInt n, None)
  | MNil => exists e, returned (exec q c) = Some (VInt 0, Some e)
  | MError t => returned (exec q c) = Some (VInt 0, Some (XText t))
  | _ => returned (exec q c) = Some (VInt 0, None)
  end.
Proof. intros Hk E. rewrite (exec_reply _ _ _ _ E), Hk. destruct m; cbn; eauto. Qed.
Example C69_nonvacuous : returned (exec (QDecrBy (bs "k") 9) (wired (bs ":-9223372036854775808" ++ crlf))) = Some (VInt (- 2 ^ 63), None).
Proof. vm_compute. reflexivity. Qed.

(** ** C70 *)
Theorem C70_mget_positional ks c l s : recv (cn_in c) = ROk (MArr l) s ->
  exists r, returned (exec (QMGet ks) c) = Some (VArr r, None) /\ length r = length l /\
  forall i m, l !! i = Some m -> r !! i = Some (match m with
    | MBulk t | MSimple t => inl t
    | MInt n => inl (itoa n)
    | MNil => inr (bs "Nil")
    | MError t => inr t
    | MArr _ => inl (msg_string m)
    end).
Proof.
  intros E. rewrite (exec_reply _ _ _ _ E). eexists. split; [reflexivity|]. split; [apply map_length|].
  intros i m Hm. change (map slot l) with (slot <$> l). rewrite list_lookup_fmap, Hm. destruct m; reflexivity.
Qed.
Example C70_nonvacuous : returned (exec (QMGet [bs "a"; bs "b"; bs "c"]) (wired (bs "*3" ++ crlf ++ bs "$1" ++ crlf ++ bs "x" ++ crlf ++ bs "$-1" ++ crlf ++ bs ":4" ++ crlf))) =
  Some (VArr [inl (bs "x"); inr (bs "Nil"); inl (bs "4")], None).
Proof. vm_compute. reflexivity. Qed.

(** ** C71
    Full statement: for all commands [qs], replies [ms] (one each, well-formed) and chunkings [cs] with
    [concat cs = concat (map serialize ms)], the i-th result is that of the i-th reply. *)
Lemma exec_all_replies qs : forall ms s s' out, length ms = length qs -> recv_n (length ms) s = ROk ms s' ->
  exists out', exec_all qs (Conn out s) = Some (zip_with (fun q m => decode (kind_of q) m) qs ms, Conn out' s').
Proof.
  induction qs as [|q qs IH]; intros [|m ms] s s' out Hl E; try discriminate.
  - injection E as ->. exists out. reflexivity.
  - cbn [length recv_n] in E. destruct (recv s) as [m1 s1| | |] eqn:E1; try discriminate. cbn [rbind] in E. destruct (recv_n (length ms) s1) as [ms1 s2| | |] eqn:E2; try discriminate.
    cbn [rbind] in E. injection E as -> -> ->. destruct (IH ms s1 s' (out ++ send (convert_to_message (request q))) ltac:(cbn in Hl; lia) E2) as (out' & H).
    exists out'. cbn [exec_all]. rewrite (exec_reply q (Conn out s) m s1 E1). cbn [cn_out]. rewrite H. cbn [zip_with]. destruct (decode (kind_of q) m). reflexivity.
Qed.
(** A payload that contains a line end and is split by the network: the second command is given
    a text taken from inside the first reply. *)
Theorem C71_reply_mixup_refuted : exists m1 m2 cs r c,
  concat cs = serialize m1 ++ serialize m2 /\ encodable m1 /\ m2 = MBulk (bs "two") /\
  exec_all [QGet (bs "a"); QGet (bs "b")] (Conn [] (new_rd cs)) = Some ([r; (VStr (bs "EVIL"), None)], c).
Proof.
  exists (MBulk (bs "hel" ++ [LF] ++ bs "+EVIL")), (MBulk (bs "two")), [bs "$9" ++ crlf ++ bs "he"; bs "l" ++ [LF] ++ bs "+EVIL" ++ crlf ++ serialize (MBulk (bs "two"))].
  eexists. eexists. split; [vm_compute; reflexivity|]. split; [exact I|]. split; [reflexivity|]. vm_compute. reflexivity.
Qed.
Theorem C71_own_reply_short_partial qs ms rest cs out : length ms = length qs -> Forall steady ms ->
  concat cs = concat (map serialize ms) ++ rest ->
  exists c, exec_all qs (Conn out (new_rd cs)) = Some (zip_with (fun q m => decode (kind_of q) m) qs ms, c) /\ bytes_left (cn_in c) = rest.
Proof.
  intros Hl Hs E. assert (H : forall s, wf s -> bytes_left s = concat (map serialize ms) ++ rest -> exists s', recv_n (length ms) s = ROk ms s' /\ bytes_left s' = rest).
  { clear -Hs. induction Hs as [|m ms Hm Hs IH]; intros s Hw E; [exists s; auto|]. cbn [map concat] in E. rewrite <- app_assoc in E.
    destruct (read_steady m Hm (S (length (bytes_left s))) s _ E Hw) as (s1 & H1 & H2 & W1); [rewrite E, app_length; lia|].
    destruct (IH s1 W1 H2) as (s' & H3 & H4). exists s'. split; [|exact H4]. cbn [length recv_n]. unfold recv at 1. rewrite H1. cbn [rbind]. rewrite H3. reflexivity. }
  destruct (H (new_rd cs)) as (s' & H1 & H2); [unfold wf; cbn; lia|exact E|].
  destruct (exec_all_replies qs ms _ s' out Hl H1) as (out' & ->). eexists. split; [reflexivity|exact H2].
Qed.
Theorem C71_own_reply_whole_chunks_partial qs (batches : list (list msg)) (chunks : list gostr) out :
  Forall2 (fun b c => b <> [] /\ wires b c /\ (length c <= 4096)%nat) batches chunks -> length (concat batches) = length qs ->
  exists c, exec_all qs (Conn out (new_rd chunks)) = Some (zip_with (fun q m => decode (kind_of q) m) qs (concat batches), c) /\ bytes_left (cn_in c) = [].
Proof.
  intros H Hl. destruct (C58_whole_replies_per_chunk_partial batches chunks H) as (s' & H1 & H2).
  destruct (exec_all_replies qs _ _ s' out Hl H1) as (out' & ->). eexists. split; [reflexivity|exact H2].
Qed.
Example C71_nonvacuous : match exec_all [QIncr (bs "a"); QGet (bs "b"); QGet (bs "c")] (Conn [] (new_rd [bs ":1"; crlf ++ bs "-ERR"; bs " no" ++ crlf ++ bs "$1" ++ crlf; bs "x" ++ crlf])) with Some (l, _) => l | None => [] end =
  [(VInt 1, None); (VStr [], Some (XText (bs "ERR no"))); (VStr (bs "x"), None)].
Proof. vm_compute. reflexivity. Qed.

(** ** C118 *)
(** The fields and values of an array of messages: the value of a field is the one after its last occurrence
    at an even position. *)
Inductive pairs_value (f : gostr) : list msg -> option gostr -> Prop :=
| pv_nil : pairs_value f [] None
| pv_later a b r v : pairs_value f r (Some v) -> pairs_value f (a :: b :: r) (Some v)
| pv_here a b r : pairs_value f r None -> msg_string a = f -> pairs_value f (a :: b :: r) (Some (msg_string b))
| pv_none a b r : pairs_value f r None -> msg_string a <> f -> pairs_value f (a :: b :: r) None.
Theorem C118_map_reply m : match m with
  | MArr l => (Nat.Even (length l) /\ exists mp, parse KMap m = (VMap (Some mp), None) /\ forall f, pairs_value f l (mp !! f)) \/
              (Nat.Odd (length l) /\ exists e, parse KMap m = (VMap None, Some e))
  | _ => exists e, parse KMap m = (VMap None, Some e)
  end.
Proof.
  destruct m as [| | | | |l]; cbn [parse]; eauto.
  assert (Hodd : Z.odd (zlen l) = Nat.odd (length l)). { unfold zlen. destruct (Nat.odd (length l)) eqn:Eo; [apply Nat.odd_spec in Eo as [n ->]; apply Z.odd_spec; exists (Z.of_nat n); lia|]. rewrite <- Z.negb_even. assert (He : Nat.even (length l) = true) by (rewrite <- Nat.negb_odd, Eo; reflexivity). apply Nat.even_spec in He as [n ->]. replace (Z.even (Z.of_nat (2 * n))) with true; [reflexivity|]. symmetry. apply Z.even_spec. exists (Z.of_nat n). lia. }
  rewrite Hodd. destruct (Nat.odd (length l)) eqn:Eo.
  - right. split; [apply Nat.odd_spec, Eo|eauto].
  - left. assert (He : Nat.even (length l) = true) by (rewrite <- Nat.negb_odd, Eo; reflexivity). split; [apply Nat.even_spec, He|]. eexists. split; [reflexivity|].
    clear Hodd Eo. intros f.
    assert (H : forall n l m0, (length l <= n)%nat -> Nat.even (length l) = true ->
      exists o, pairs_value f l o /\ pairs_map l m0 !! f = match o with Some v => Some v | None => m0 !! f end).
    { clear. induction n as [|n IH]; intros [|a [|b r]] m0 Hn He; cbn in Hn, He; try lia; try discriminate.
      - exists None. split; [constructor|reflexivity].
      - exists None. split; [constructor|reflexivity].
      - destruct (IH r (<[msg_string a := msg_string b]> m0) ltac:(lia) He) as (o & H1 & H2). cbn [pairs_map]. rewrite H2. destruct o as [v|].
        + exists (Some v). split; [constructor; exact H1|reflexivity].
        + destruct (decide (msg_string a = f)) as [Ef|Ef].
          * exists (Some (msg_string b)). split; [constructor; assumption|]. rewrite Ef. apply lookup_insert.
          * exists None. split; [constructor; assumption|]. apply lookup_insert_ne, Ef. }
    destruct (H (length l) l ∅ (le_n _) He) as (o & H1 & H2). rewrite H2, lookup_empty. destruct o; exact H1.
Qed.
Example C118_nonvacuous : match parse KMap (MArr [MBulk (bs "f"); MInt 1; MBulk (bs "g"); MNil; MBulk (bs "f"); MSimple (bs "2")]) with
  | (VMap (Some mp), None) => mp !! bs "f" = Some (bs "2") /\ mp !! bs "g" = Some (bs "Nil") /\ mp !! bs "h" = None | _ => False end /\
  pairs_value (bs "f") [MBulk (bs "f"); MInt 1; MBulk (bs "g"); MNil; MBulk (bs "f"); MSimple (bs "2")] (Some (bs "2")).
Proof.
  split; [vm_compute; auto|]. apply pv_later, pv_later, (pv_here _ (MBulk (bs "f")) (MSimple (bs "2"))); [constructor|reflexivity].
Qed.
