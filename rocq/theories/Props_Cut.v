From stdpp Require Import gmap list.
From Verif Require Import Base GoFloat RespModel RespSpec RespLib LzfModel PackedModel RdbModel RdbSpec RdbLib Props_Rdb.

(** * C200: a file that is cut off (redis/replication.go Load, redis/rdb/rdb.go), for all files

    C84 and C127 cut off well-formed snapshots.  Here the file is any sequence of bytes. *)

(** ** Reading a file and a longer one

    The two readers of a file and of the same file with [more] behind it, as long as both delivered the same bytes. *)
Definition chunk (c : gostr) : list gostr := match c with [] => [] | _ => [c] end.
Definition along (more : gostr) (s s' : rd) : Prop :=
  exists b c, s = Rd b (chunk c) /\
    ((c <> [] /\ s' = Rd b [c ++ more]) \/ (c = [] /\ exists k, s' = Rd (b ++ take k more) (chunk (drop k more)))).
Definition spent (s : rd) : Prop := s = Rd [] [].

Lemma src_chunk n c : (0 < n)%nat -> src_read n (chunk c) = match c with [] => None | _ => Some (take n c, chunk (drop n c)) end.
Proof. intros Hn. destruct c as [|x c]; [reflexivity|]. cbn [chunk src_read]. destruct (drop n (x :: c)); reflexivity. Qed.
Lemma chunk_ne c : c <> [] -> chunk c = [c].
Proof. destruct c; [congruence|reflexivity]. Qed.
(** what one read of [n] bytes from the source does to both *)
Lemma take_along more n c : (0 < n)%nat -> c <> [] ->
  src_read n [c ++ more] = Some (take n c ++ take (n - length c) more, chunk (drop n c ++ drop (n - length c) more)).
Proof.
  intros Hn Hc. rewrite <- (chunk_ne (c ++ more)) by (destruct c; [congruence|discriminate]). rewrite src_chunk by exact Hn. destruct (c ++ more) eqn:E; [destruct c; [congruence|discriminate]|].
  rewrite <- E, firstn_app, skipn_app. reflexivity.
Qed.
Lemma along_after more b n c : c <> [] -> along more (Rd b (chunk (drop n c))) (Rd (b ++ take (n - length c) more) (chunk (drop n c ++ drop (n - length c) more))).
Proof.
  intros Hc. exists b, (drop n c). split; [reflexivity|]. destruct (drop n c) as [|x r] eqn:E.
  - right. split; [reflexivity|]. exists (n - length c)%nat. reflexivity.
  - left. split; [discriminate|]. assert (n < length c)%nat. { destruct (Nat.lt_ge_cases n (length c)); [assumption|]. rewrite drop_ge in E by lia. discriminate. }
    replace (n - length c)%nat with 0%nat by lia. rewrite take_0, drop_0, app_nil_r. reflexivity.
Qed.

Lemma byte_along more s s' x t : along more s s' -> read_byte s = ROk x t -> exists t', read_byte s' = ROk x t' /\ along more t t'.
Proof.
  intros (b & c & -> & H) E. unfold read_byte in *. cbn [r_buf r_src] in *. destruct b as [|y b].
  - rewrite src_chunk in E by exact bufsize_pos. destruct c as [|z c]; [discriminate|]. destruct H as [[_ ->]|[Hc _]]; [|discriminate]. cbn [r_buf r_src].
    rewrite take_along by (exact bufsize_pos || discriminate). destruct (take bufsize (z :: c)) as [|u r] eqn:Et; [discriminate|]. injection E as -> <-. cbn [app]. eexists. split; [reflexivity|]. apply (along_after more r bufsize (z :: c)). discriminate.
  - injection E as -> <-. destruct H as [[Hc ->]|[-> [k ->]]]; cbn [r_buf r_src app]; (eexists; split; [reflexivity|]); exists b; [exists c; split; [reflexivity|left; auto]|exists []; split; [reflexivity|right; split; [reflexivity|exists k; reflexivity]]].
Qed.
Lemma ok_inj {A} (a b : A) s t : ROk a s = ROk b t -> a = b /\ s = t.
Proof. intros H. injection H as -> ->. auto. Qed.
Lemma src_chunk_ne n c : (0 < n)%nat -> c <> [] -> src_read n (chunk c) = Some (take n c, chunk (drop n c)).
Proof. intros Hn Hc. rewrite src_chunk by exact Hn. destruct c; [congruence|reflexivity]. Qed.
Lemma some_buf m b cs : (0 < m)%nat -> b <> [] -> read_some m (Rd b cs) = ROk (take m b) (Rd (drop m b) cs).
Proof. intros Hm Hb. destruct m as [|m]; [lia|]. destruct b as [|x b]; [congruence|reflexivity]. Qed.
Lemma some_src m cs : (0 < m)%nat -> read_some m (Rd [] cs) =
  if Nat.leb bufsize m then match src_read m cs with Some (d, cs) => ROk d (Rd [] cs) | None => RErr EEof (Rd [] []) end
  else match src_read bufsize cs with Some (d, cs) => ROk (take m d) (Rd (drop m d) cs) | None => RErr EEof (Rd [] []) end.
Proof. intros Hm. destruct m as [|m]; [lia|]. reflexivity. Qed.
(** a Read is the same for both, or it was short and the shorter file is at its end; the other one read something, too *)
Lemma some_along more n s s' d t : along more s s' -> read_some n s = ROk d t ->
  (exists t', read_some n s' = ROk d t' /\ along more t t') \/ (spent t /\ (length d < n)%nat /\ exists d' t', read_some n s' = ROk d' t').
Proof.
  intros (b & c & -> & H) E. destruct n as [|n]; [cbn in E; injection E as <- <-; left; exists s'; split; [reflexivity|]; exists b, c; auto|].
  assert (Hm : (0 < S n)%nat) by lia. remember (S n) as m eqn:Em. clear Em n. pose proof bufsize_pos as Hp. destruct (decide (b = [])) as [->|Hb].
  - rewrite some_src in E by exact Hm. assert (Hc : c <> []) by (intros ->; destruct (Nat.leb bufsize m); discriminate E). destruct H as [[_ ->]|[Hc' _]]; [|congruence]. rewrite some_src by exact Hm.
    rewrite !src_chunk_ne in E by assumption. rewrite !take_along by assumption. destruct (Nat.leb_spec bufsize m) as [L|L]; apply ok_inj in E as [<- <-].
    + destruct (Nat.le_gt_cases m (length c)) as [Hl|Hl].
      * left. pose proof (along_after more [] m c Hc) as A. replace (m - length c)%nat with 0%nat in * by lia. rewrite take_0, app_nil_r in *. eexists. split; [reflexivity|exact A].
      * right. split; [unfold spent; rewrite drop_ge by lia; reflexivity|]. split; [rewrite take_length; lia|]. eauto.
    + destruct (Nat.le_gt_cases m (length c)) as [Hl|Hl].
      * left. assert (Hn : (m <= length (take bufsize c))%nat) by (rewrite take_length; lia). rewrite take_app_le, drop_app_le by exact Hn. eexists. split; [reflexivity|].
        apply (along_after more (drop m (take bufsize c)) bufsize c Hc).
      * right. split; [unfold spent; rewrite (take_ge c) by lia; rewrite !drop_ge by lia; reflexivity|]. split; [rewrite !take_length; lia|]. eauto.
  - rewrite some_buf in E by assumption. apply ok_inj in E as [<- <-]. destruct H as [[Hc ->]|[-> [k ->]]].
    + left. rewrite some_buf by assumption. eexists. split; [reflexivity|]. exists (drop m b), c. split; [reflexivity|]. left. auto.
    + rewrite some_buf; [|exact Hm|destruct b; [congruence|discriminate]]. destruct (Nat.le_gt_cases m (length b)) as [Hl|Hl].
      * left. rewrite take_app_le, drop_app_le by exact Hl. eexists. split; [reflexivity|]. exists (drop m b), []. split; [reflexivity|]. right. split; [reflexivity|]. exists k. reflexivity.
      * right. split; [unfold spent; rewrite drop_ge by lia; reflexivity|]. split; [rewrite take_length; lia|]. eauto.
Qed.
Lemma some_spent n s d t : spent s -> read_some n s = ROk d t -> n = 0%nat /\ d = [] /\ t = s.
Proof. intros ->. destruct n; [cbn; intros H; injection H as <- <-; auto|]. unfold read_some. cbn [r_buf r_src src_read]. destruct (Nat.leb _ _); discriminate. Qed.
Lemma byte_spent s x t : spent s -> read_byte s <> ROk x t.
Proof. intros ->. discriminate. Qed.
Lemma full_along more fuel : forall n acc s s' d t, along more s s' -> read_full_aux fuel n acc s = ROk d t -> exists t', read_full_aux fuel n acc s' = ROk d t' /\ along more t t'.
Proof.
  induction fuel as [|fuel IH]; intros n acc s s' d t A E; (destruct n as [|n]; [cbn in E; injection E as <- <-; exists s'; split; [reflexivity|exact A]|]); [discriminate|].
  cbn [read_full_aux] in *. destruct (read_some (S n) s) as [d1 s1|? ?| |] eqn:E1; try discriminate. cbn [rbind] in E. destruct (some_along _ _ _ _ _ _ A E1) as [(s1' & E1' & A1)|(Hs & Hl & _)].
  - rewrite E1'. cbn [rbind]. exact (IH _ _ _ _ _ _ A1 E).
  - exfalso. destruct (S n - length d1)%nat as [|k] eqn:Ek; [lia|]. destruct fuel; [discriminate|]. cbn [read_full_aux] in E.
    destruct (read_some (S k) s1) as [d2 s2|? ?| |] eqn:E2; try discriminate. destruct (some_spent _ _ _ _ Hs E2) as [Hk _]. discriminate.
Qed.
Lemma full_spent n s d t : spent s -> read_full n s = ROk d t -> n = 0%nat /\ d = [] /\ t = s.
Proof.
  intros Hs. unfold read_full. destruct n as [|n]; [cbn; intros H; injection H as <- <-; auto|]. cbn [read_full_aux]. destruct (read_some (S n) s) as [d1 s1|? ?| |] eqn:E1; try discriminate.
  destruct (some_spent _ _ _ _ Hs E1) as [Hk _]. discriminate.
Qed.
Lemma some_total n s : (exists d t, read_some (S n) s = ROk d t /\ d <> []) \/ read_some (S n) s = RErr EEof (Rd [] []).
Proof.
  destruct s as [b cs]. destruct (decide (b = [])) as [->|Hb].
  - rewrite some_src by lia. assert (Hs : forall m, (0 < m)%nat -> match src_read m cs with Some (d, _) => d <> [] | None => True end).
    { intros m Hm. induction cs as [|c cs IH]; [exact I|]. cbn. destruct c as [|x c]; [exact IH|]. destruct m; [lia|]. discriminate. }
    pose proof bufsize_pos as Hp. destruct (Nat.leb bufsize (S n)).
    + specialize (Hs (S n) ltac:(lia)). destruct (src_read (S n) cs) as [[d r]|]; eauto.
    + specialize (Hs bufsize Hp). destruct (src_read bufsize cs) as [[d r]|]; [|auto]. left. eexists _, _. split; [reflexivity|]. destruct d; [congruence|discriminate].
  - left. rewrite some_buf by (lia || exact Hb). eexists _, _. split; [reflexivity|]. destruct b; [congruence|discriminate].
Qed.
Lemma full_total f : forall n acc s, (n <= f)%nat -> (exists d t, read_full_aux f n acc s = ROk d t) \/ exists e, read_full_aux f n acc s = RErr e (Rd [] []).
Proof.
  induction f as [|f IH]; intros n acc s Hn; (destruct n as [|n]; [left; eexists _, _; reflexivity|]); [lia|]. cbn [read_full_aux].
  destruct (some_total n s) as [(d & t & -> & Hd)| ->]; cbn [rbind]; [|right; eauto]. apply IH. destruct d; [congruence|]. cbn [length]. lia.
Qed.

(** ** The parsers *)
Lemma lbind_ok {A B} (x : lres A) (k : A -> rd -> lres B) b t : lbind x k = LOk b t -> exists a s1, x = LOk a s1 /\ k a s1 = LOk b t.
Proof. destruct x; try discriminate. cbn. eauto. Qed.
Lemma lift_ok {A} (x : res A) a t : lift x = LOk a t -> x = ROk a t.
Proof. destruct x; try discriminate. cbn. intros H. injection H as -> ->. reflexivity. Qed.
(** A parser that succeeds on the shorter file gives the same on the longer one, or it has reached the end of the shorter one. *)
Definition follows {A} (more : gostr) (f : rd -> lres A) : Prop := forall s s' a t, along more s s' -> f s = LOk a t -> (exists t', f s' = LOk a t' /\ along more t t') \/ spent t.
Definition stays {A} (f : rd -> lres A) : Prop := forall s a t, spent s -> f s = LOk a t -> spent t.
Lemma follows_bind {A B} more (f : rd -> lres A) (k : A -> rd -> lres B) : follows more f -> (forall a, follows more (k a)) -> (forall a, stays (k a)) -> follows more (fun s => lbind (f s) k).
Proof.
  intros Hf Hk Hs s s' b t A0 E. apply lbind_ok in E as (a & s1 & E1 & E2). destruct (Hf _ _ _ _ A0 E1) as [(s1' & E1' & A1)|Hsp].
  - rewrite E1'. cbn. exact (Hk a _ _ _ _ A1 E2).
  - right. exact (Hs a _ _ _ Hsp E2).
Qed.
Lemma stays_bind {A B} (f : rd -> lres A) (k : A -> rd -> lres B) : stays f -> (forall a, stays (k a)) -> stays (fun s => lbind (f s) k).
Proof. intros Hf Hk s b t Hsp E. apply lbind_ok in E as (a & s1 & E1 & E2). exact (Hk a _ _ _ (Hf _ _ _ Hsp E1) E2). Qed.
Lemma follows_ret {A} more (a : A) : follows more (fun s => LOk a s).
Proof. intros s s' b t A0 E. injection E as <- <-. left. exists s'. auto. Qed.
Lemma stays_ret {A} (a : A) : stays (fun s => LOk a s).
Proof. intros s b t Hs E. injection E as <- <-. exact Hs. Qed.
Lemma follows_no {A} more (r : lres A) : (forall a t, r <> LOk a t) -> follows more (fun _ => r).
Proof. intros H s s' a t _ E. destruct (H _ _ E). Qed.
Lemma stays_no {A} (r : lres A) : (forall a t, r <> LOk a t) -> stays (fun _ => r).
Proof. intros H s a t _ E. destruct (H _ _ E). Qed.
Lemma follows_byte more : follows more (fun s => lift (read_byte s)).
Proof. intros s s' a t A0 E. apply lift_ok in E. destruct (byte_along _ _ _ _ _ A0 E) as (t' & -> & A1). left. exists t'. auto. Qed.
Lemma stays_byte : stays (fun s => lift (read_byte s)).
Proof. intros s a t Hs E. apply lift_ok in E. destruct (byte_spent _ _ _ Hs E). Qed.
Lemma follows_full more n : follows more (fun s => lift (read_full n s)).
Proof. intros s s' a t A0 E. apply lift_ok in E. destruct (full_along _ _ _ _ _ _ _ _ A0 E) as (t' & H & A1). left. exists t'. unfold read_full. rewrite H. auto. Qed.
Lemma stays_full n : stays (fun s => lift (read_full n s)).
Proof. intros s a t Hs E. apply lift_ok in E. destruct (full_spent _ _ _ _ Hs E) as (_ & _ & ->). exact Hs. Qed.
Lemma follows_lzf more x : follows more (lift_lzf x).
Proof. destruct x; [apply follows_ret|apply follows_no; discriminate..]. Qed.
Lemma stays_lzf x : stays (lift_lzf x).
Proof. destruct x; [apply stays_ret|apply stays_no; discriminate..]. Qed.
Lemma follows_opt {A} more (x : option A) : follows more (lift_opt x).
Proof. destruct x; [apply follows_ret|apply follows_no; discriminate]. Qed.
Lemma stays_opt {A} (x : option A) : stays (lift_opt x).
Proof. destruct x; [apply stays_ret|apply stays_no; discriminate]. Qed.

Lemma skip_along more n s s' x t : along more s s' -> skip_len n s = LOk x t -> x = (0, false) /\ (exists t', skip_len n s' = LOk (0, false) t') /\ ((exists t', skip_len n s' = LOk (0, false) t' /\ along more t t') \/ spent t).
Proof.
  intros A0. unfold skip_len. assert (T : exists t', match read_full n s' with ROk _ s'0 => LOk (0, false) s'0 | RErr _ s'0 => LOk (0, false) s'0 | RPanic => LPanic | RFuel => LFuel end = LOk (0, false) t').
  { destruct (full_total n n [] s' ltac:(lia)) as [(d & u & H)|(e & H)]; unfold read_full; rewrite H; eauto. }
  destruct (full_total n n [] s ltac:(lia)) as [(d & u & H)|(e & H)]; unfold read_full in *; rewrite H; intros E; injection E as <- <-; (split; [reflexivity|]); (split; [exact T|]); [left|right; reflexivity].
  destruct (full_along _ _ _ _ _ _ _ _ A0 H) as (t' & -> & A1). exists t'. auto.
Qed.
(** a length is read the same, or as 0 when the shorter file ends within it *)
Lemma len_along more s s' x t : along more s s' -> load_len s = LOk x t ->
  (exists t', load_len s' = LOk x t' /\ along more t t') \/ (spent t /\ x = (0, false) /\ exists x' t', load_len s' = LOk x' t').
Proof.
  intros A0 E. unfold load_len in *. apply lbind_ok in E as (b & s1 & E1 & E2). apply lift_ok in E1. destruct (byte_along _ _ _ _ _ A0 E1) as (s1' & -> & A1). cbn [lift lbind].
  cbn zeta in *. destruct (_ =? 3); [injection E2 as <- <-; left; eauto|]. destruct (_ =? 0); [injection E2 as <- <-; left; eauto|]. destruct (_ =? 1).
  - destruct (read_byte s1) as [b1 s2|? ?| |] eqn:Eb; try discriminate. injection E2 as <- <-. destruct (byte_along _ _ _ _ _ A1 Eb) as (s2' & -> & A2). left. eauto.
  - assert (K : forall n, skip_len n s1 = LOk x t -> (exists t', skip_len n s1' = LOk x t' /\ along more t t') \/ (spent t /\ x = (0, false) /\ exists x' t', skip_len n s1' = LOk x' t')).
    { intros n H. destruct (skip_along _ _ _ _ _ _ A1 H) as (-> & (u & Hu) & [(t' & Ht & At)|Hs]); [left; eauto|right; eauto]. }
    destruct (_ =? 128); [exact (K _ E2)|]. destruct (_ =? 129); [exact (K _ E2)|discriminate].
Qed.
Lemma len_spent s x t : spent s -> load_len s <> LOk x t.
Proof. intros Hs E. unfold load_len in E. apply lbind_ok in E as (b & s1 & E1 & _). apply lift_ok in E1. exact (byte_spent _ _ _ Hs E1). Qed.
Lemma follows_len more : follows more load_len.
Proof. intros s s' x t A0 E. destruct (len_along _ _ _ _ _ A0 E) as [H|(H & _)]; auto. Qed.
Lemma stays_len : stays load_len.
Proof. intros s x t Hs E. destruct (len_spent _ _ _ Hs E). Qed.
Lemma padded_ne n d : (0 < n)%nat -> padded n d <> [].
Proof. intros Hn. unfold padded. destruct d; [|discriminate]. cbn [length]. rewrite Nat.sub_0_r. destruct n; [lia|discriminate]. Qed.
(** a string is read the same, or the shorter file ends within it; then it is empty, or not empty in either file *)
Lemma string_along more s s' v t : along more s s' -> load_string s = LOk v t ->
  (exists t', load_string s' = LOk v t' /\ along more t t') \/ (spent t /\ (v = [] \/ exists v' t', load_string s' = LOk v' t' /\ v' <> [])).
Proof.
  intros A0 E. unfold load_string in *. apply lbind_ok in E as ([len enc] & s1 & E1 & E2). destruct (len_along _ _ _ _ _ A0 E1) as [(s1' & -> & A1)|(Hs & Hx & _)]; cbn [lbind].
  - destruct enc.
    + assert (G : (exists t', (if len =? 0 then lbind (lift (read_byte s1')) (fun b s2 => LOk (itoa (int8_of b)) s2)
        else if len =? 1 then lbind (lift (read_full 2 s1')) (fun d s2 => LOk (itoa (le_val d)) s2)
        else if len =? 2 then match read_full 4 s1' with ROk d s2 => LOk (itoa (le_val d)) s2 | RErr _ _ => LExit | RPanic => LPanic | RFuel => LFuel end
        else if len =? 3 then lbind (load_len s1') (fun '(n, _) s2 => lbind (load_len s2) (fun '(m, _) s3 => lbind (lift (read_full (Z.to_nat n) s3)) (fun c s4 => lift_lzf (decompress c m) s4)))
        else LErr) = LOk v t' /\ along more t t') \/ (spent t /\ v = [])); [|tauto].
      destruct (len =? 0).
      { apply lbind_ok in E2 as (b & s2 & Eb & E2). apply lift_ok in Eb. destruct (byte_along _ _ _ _ _ A1 Eb) as (s2' & -> & A2). injection E2 as <- <-. left. cbn. eauto. }
      destruct (len =? 1).
      { apply lbind_ok in E2 as (b & s2 & Eb & E2). apply lift_ok in Eb. destruct (full_along _ _ _ _ _ _ _ _ A1 Eb) as (s2' & H & A2). unfold read_full. rewrite H. injection E2 as <- <-. left. cbn. eauto. }
      destruct (len =? 2).
      { unfold read_full in *. destruct (read_full_aux 4 4 [] s1) as [d s2|? ?| |] eqn:Eb; try discriminate. destruct (full_along _ _ _ _ _ _ _ _ A1 Eb) as (s2' & H & A2). rewrite H. injection E2 as <- <-. left. eauto. }
      destruct (len =? 3); [|discriminate].
      apply lbind_ok in E2 as ([n e1] & s2 & En & E2). destruct (len_along _ _ _ _ _ A1 En) as [(s2' & -> & A2)|(Hs & _)]; cbn [lbind].
      2: { apply lbind_ok in E2 as ([m e2] & s3 & Em & _). destruct (len_spent _ _ _ Hs Em). }
      apply lbind_ok in E2 as ([m e2] & s3 & Em & E2). destruct (len_along _ _ _ _ _ A2 Em) as [(s3' & -> & A3)|(Hs & Hx & _)]; cbn [lbind].
      * apply lbind_ok in E2 as (c & s4 & Ec & E2). apply lift_ok in Ec. destruct (full_along _ _ _ _ _ _ _ _ A3 Ec) as (s4' & H & A4). unfold read_full. rewrite H. cbn [lift lbind].
        destruct (decompress c m); try discriminate. injection E2 as <- <-. left. cbn. eauto.
      * right. injection Hx as -> ->. apply lbind_ok in E2 as (c & s4 & Ec & E2). apply lift_ok in Ec. destruct (full_spent _ _ _ _ Hs Ec) as (_ & -> & ->).
        vm_compute in E2. discriminate.
    + apply lbind_ok in E2 as (d & s2 & Ed & E2). apply lift_ok in Ed. injection E2 as <- <-. destruct (some_along _ _ _ _ _ _ A1 Ed) as [(s2' & -> & A2)|(Hs & Hl & d' & t' & ->)].
      * left. cbn. eauto.
      * right. split; [exact Hs|]. right. cbn. eexists _, _. split; [reflexivity|]. apply padded_ne. lia.
  - injection Hx as -> ->. apply lbind_ok in E2 as (d & s2 & Ed & E2). apply lift_ok in Ed. destruct (some_spent _ _ _ _ Hs Ed) as (_ & -> & ->). injection E2 as <- <-. right. split; [exact Hs|]. left. reflexivity.
Qed.
Lemma string_spent s v t : spent s -> load_string s <> LOk v t.
Proof. intros Hs E. unfold load_string in E. apply lbind_ok in E as (x & s1 & E1 & _). exact (len_spent _ _ _ Hs E1). Qed.
Lemma follows_string more : follows more load_string.
Proof. intros s s' x t A0 E. destruct (string_along _ _ _ _ _ A0 E) as [H|(H & _)]; auto. Qed.
Lemma stays_string : stays load_string.
Proof. intros s x t Hs E. destruct (string_spent _ _ _ Hs E). Qed.
Ltac fl := repeat first
  [ apply follows_ret | apply stays_ret | apply follows_byte | apply stays_byte | apply follows_full | apply stays_full | apply follows_len | apply stays_len | apply follows_string | apply stays_string
  | apply follows_lzf | apply stays_lzf | apply follows_opt | apply stays_opt | (apply follows_no; discriminate) | (apply stays_no; discriminate)
  | match goal with
    | |- follows _ (fun s => lbind _ _) => apply follows_bind; [|intros ?|intros ?]
    | |- stays (fun s => lbind _ _) => apply stays_bind; [|intros ?]
    | |- follows _ (fun s => let '(_, _) := ?a in _) => destruct a
    | |- stays (fun s => let '(_, _) := ?a in _) => destruct a
    | |- follows _ (let '(_, _) := ?a in _) => destruct a
    | |- stays (let '(_, _) := ?a in _) => destruct a
    | |- follows _ (fun s => if ?b then _ else _) => destruct b
    | |- stays (fun s => if ?b then _ else _) => destruct b
    | |- follows _ (fun s => match ?b with Some _ => _ | None => _ end) => destruct b
    | |- stays (fun s => match ?b with Some _ => _ | None => _ end) => destruct b
    end ].
Lemma follows_double more : follows more load_double.
Proof. unfold load_double. fl. Qed.
Lemma stays_double : stays load_double.
Proof. unfold load_double. fl. Qed.
Lemma follows_bdouble more : follows more load_binary_double.
Proof. unfold load_binary_double. fl. Qed.
Lemma stays_bdouble : stays load_binary_double.
Proof. unfold load_binary_double. fl. Qed.
Lemma stays_strings k : stays (load_strings k).
Proof. induction k; cbn [load_strings]; fl. exact IHk. Qed.
Lemma follows_strings more k : follows more (load_strings k).
Proof. induction k; cbn [load_strings]; fl; [exact IHk|apply stays_strings]. Qed.
Lemma stays_scored bin k : stays (load_scored bin k).
Proof. induction k; cbn [load_scored]; fl; first [exact IHk|apply stays_double|apply stays_bdouble]. Qed.
Lemma follows_scored more bin k : follows more (load_scored bin k).
Proof. induction k; cbn [load_scored]; fl; first [exact IHk|apply stays_scored|apply follows_double|apply stays_double|apply follows_bdouble|apply stays_bdouble]. Qed.
Lemma stays_nodes k : stays (load_nodes k).
Proof. induction k; cbn [load_nodes]; fl; exact IHk. Qed.
Lemma follows_nodes more k : follows more (load_nodes k).
Proof. induction k; cbn [load_nodes]; fl; first [exact IHk|apply stays_nodes]. Qed.
Lemma stays_value range op key : stays (load_value range op key).
Proof. unfold load_value. cbn zeta. fl; first [apply stays_strings|apply stays_scored|apply stays_nodes]. Qed.
Lemma follows_value more range op key : follows more (load_value range op key).
Proof. unfold load_value. cbn zeta. fl; first [apply follows_strings|apply stays_strings|apply follows_scored|apply stays_scored|apply follows_nodes|apply stays_nodes]. Qed.
Lemma stays_item range st op : stays (load_item range st op).
Proof. unfold load_item. fl; apply stays_value. Qed.
Lemma follows_item more range st op : follows more (load_item range st op).
Proof. unfold load_item. fl; first [apply follows_value|apply stays_value]. Qed.

(** ** C200

    Full statement: if Load returns nil for a file that was cut off, it sends the same messages for the whole file and returns nil.  False for one message
    only ([C200_refuted]): a value of a module type ends Load (C84), and if the file ends within its key, which has an expiry, the one message for that key,
    the last one, is for another key.  [near]: *)
Definition expire_msg (db : Z) (k n : gostr) : rmsg := RMsg db (convert_to_message [bs "pExpire"; k; n]).
Definition near (ms ms' : list rmsg) : Prop := ms' = ms \/ exists pre db k k' n, ms = pre ++ [expire_msg db k n] /\ ms' = pre ++ [expire_msg db k' n].

Lemma stop_along more range st op s s' ms st' t : along more s s' -> load_item range st op s = LOk (ms, st', false) t ->
  exists ms' t', load_item range st op s' = LOk (ms', st', false) t' /\ near ms ms'.
Proof.
  intros A0. unfold load_item.
  repeat match goal with
  | |- (if op =? 255 then _ else _) = _ -> _ => destruct (op =? 255); [intros E; injection E as <- <- <-; eexists _, _; split; [reflexivity|left; reflexivity]|]
  | |- (if op =? 250 then _ else _) = _ -> _ => destruct (op =? 250);
      [intros E; apply lbind_ok in E as (k & s1 & _ & E); apply lbind_ok in E as (v & s2 & _ & E); destruct (gostr_eqb k (bs "repl-id")); [discriminate E|]; destruct (gostr_eqb k (bs "repl-offset")); [destruct (atoi v)|]; discriminate E|]
  | |- (if op =? 247 then _ else _) = _ -> _ => destruct (op =? 247);
      [intros E; apply lbind_ok in E as (k & s1 & _ & E); apply lbind_ok in E as ([w ?] & s2 & _ & E); destruct (negb (w =? 2)); [discriminate E|];
       apply lbind_ok in E as (? & s3 & _ & E); apply lbind_ok in E as ([e ?] & s4 & _ & E); destruct (negb (e =? 0)); discriminate E|]
  | |- (if op =? _ then _ else _) = _ -> _ => destruct (op =? _);
      [intros E; repeat (let a := fresh in apply lbind_ok in E as (a & ? & _ & E); try destruct a); discriminate E|]
  end.
  intros E. apply lbind_ok in E as (key & s1 & Ek & E). destruct (gostr_eqb key []) eqn:Hk; [discriminate|]. apply lbind_ok in E as ([cmd stop] & s2 & Ev & E).
  assert (G : stop = true /\ st' = Lst (l_db st) (l_id st) (l_off st) 0 /\ ms = match cmd with Some args => [emit st args] | None => [] end ++ (if l_exp st >? 0 then [emit st [bs "pExpire"; key; itoa (wrap64 (l_exp st))]] else [])).
  { destruct stop; [|discriminate]. injection E as <- <- <-. auto. }
  clear E. destruct G as (-> & -> & ->). 
  assert (V : cmd = None /\ ((op =? 15) = true \/ ((op =? 15) = false /\ (forall k s, load_value range op k s = LOk (None, true) s)))).
  { unfold load_value in Ev |- *. cbn zeta in *. repeat match type of Ev with (if op =? ?x then _ else _) = _ => lazymatch x with 15 => fail | _ => destruct (op =? x); [apply lbind_ok in Ev as (? & ? & _ & Ev); discriminate Ev|] end end.
    destruct (op =? 15); [apply lbind_ok in Ev as (? & ? & _ & Ev); injection Ev as <- <-; auto|]. destruct ((op =? 6) || (op =? 7)); [injection Ev as <- <-; split; [reflexivity|]; right; split; [reflexivity|]; reflexivity|discriminate]. }
  destruct V as [-> V]. cbn [app].
  destruct (string_along _ _ _ _ _ A0 Ek) as [(s1' & -> & A1)|(Hs & [-> |(key' & s1' & -> & Hk')])]; [|discriminate Hk|].
  - cbn [lbind]. rewrite Hk. assert (X : exists t', load_value range op key s1' = LOk (None, true) t').
    { destruct V as [V|[_ V]]; [|rewrite V; eauto]. apply Z.eqb_eq in V. subst op. unfold load_value in *. cbn in Ev |- *. apply lbind_ok in Ev as (x & s3 & El & _).
      destruct (len_along _ _ _ _ _ A1 El) as [(t' & -> & _)|(_ & _ & x' & t' & ->)]; cbn; eauto. }
    destruct X as (t' & ->). cbn. eexists _, _. split; [reflexivity|left; reflexivity].
  - assert (X : forall k s, load_value range op k s = LOk (None, true) s).
    { destruct V as [V|[_ V]]; [|exact V]. apply Z.eqb_eq in V. subst op. unfold load_value in Ev. cbn in Ev. apply lbind_ok in Ev as (x & s3 & El & _). destruct (len_spent _ _ _ Hs El). }
    cbn [lbind]. assert (Hk2 : gostr_eqb key' [] = false) by (unfold gostr_eqb; apply bool_decide_eq_false_2; exact Hk'). rewrite Hk2, X. cbn. eexists _, _. split; [reflexivity|].
    destruct (l_exp st >? 0); [|left; reflexivity]. right. exists [], (l_db st), key, key', (itoa (wrap64 (l_exp st))). split; reflexivity.
Qed.
Lemma near_app l ms ms' : near ms ms' -> near (l ++ ms) (l ++ ms').
Proof. intros [-> |(pre & db & k & k' & n & -> & ->)]; [left; reflexivity|]. right. exists (l ++ pre), db, k, k', n. rewrite !app_assoc. auto. Qed.
Lemma loop_along more range j : forall fuel st s s' ms st', along more s s' -> load_loop range fuel st s = (ms, ONil, st') ->
  exists ms', load_loop range (fuel + j) st s' = (ms', ONil, st') /\ near ms ms'.
Proof.
  induction fuel as [|fuel IH]; intros st s s' ms st' A0 E; [discriminate|]. cbn [load_loop Nat.add] in *.
  destruct (lbind (load_opcode s) (fun op s1 => load_item range st op s1)) as [[[ms1 st1] go] s1| | | |] eqn:E1; try discriminate.
  apply lbind_ok in E1 as (op & s0 & Eo & Ei). unfold load_opcode in *. apply lbind_ok in Eo as (b & s00 & Eb & Eo). apply lift_ok in Eb. injection Eo as <- <-.
  destruct (byte_along _ _ _ _ _ A0 Eb) as (s0' & -> & A1). cbn [lift lbind]. destruct go.
  - destruct (load_loop range fuel st1 s1) as [[r o] e] eqn:El. injection E as <- -> ->. destruct (follows_item _ _ _ _ _ _ _ _ A1 Ei) as [(s1' & -> & A2)|Hs].
    + destruct (IH _ _ _ _ _ A2 El) as (r' & -> & N). exists (ms1 ++ r'). split; [reflexivity|]. apply near_app, N.
    + exfalso. destruct fuel; [discriminate|]. cbn [load_loop] in El. rewrite Hs in El. discriminate.
  - injection E as <- <-. destruct (stop_along _ _ _ _ _ _ _ _ _ A1 Ei) as (ms' & t' & -> & N). exists ms'. auto.
Qed.
Lemma along_left more s s' : along more s s' -> bytes_left s' = bytes_left s ++ more.
Proof.
  assert (C : forall c, concat (chunk c) = c) by (intros [|x c]; [reflexivity|]; apply (app_nil_r (x :: c))). unfold bytes_left.
  intros (b & c & -> & [[Hc ->]|[-> [k ->]]]); cbn [r_buf r_src]; rewrite !C; cbn [concat]; rewrite ?app_nil_r; [apply app_assoc|]. rewrite <- app_assoc, take_drop. reflexivity.
Qed.
Theorem C200_cut_partial range db F more ms st : load range db [F] = (ms, ONil, st) -> exists ms', load range db [F ++ more] = (ms', ONil, st) /\ near ms ms'.
Proof.
  intros E. unfold load in *. destruct F as [|x F]; [discriminate|]. set (F0 := x :: F) in *.
  assert (A0 : along more (new_rd [F0]) (new_rd [F0 ++ more])) by (exists [], F0; split; [reflexivity|]; left; split; [discriminate|reflexivity]).
  destruct (read_some 9 (new_rd [F0])) as [d s|? ?| |] eqn:E9; try discriminate. destruct (some_along _ _ _ _ _ _ A0 E9) as [(s' & -> & A1)|(Hs & _)].
  - rewrite (along_left _ _ _ A1), app_length. exact (loop_along more range (length more) _ _ _ _ _ _ A1 E).
  - rewrite Hs in E. discriminate.
Qed.
(** In particular the messages are the same if the last one is not an expiry. *)
Theorem C200_same_partial range db F more ms st : load range db [F] = (ms, ONil, st) -> (forall pre db' k n, ms <> pre ++ [expire_msg db' k n]) -> load range db [F ++ more] = (ms, ONil, st).
Proof. intros E H. destruct (C200_cut_partial _ _ _ more _ _ E) as (ms' & E' & [-> |(pre & db' & k & k' & n & -> & _)]); [exact E'|]. destruct (H pre db' k n eq_refl). Qed.
(** a module value under "key" that expires, cut off behind the "k" *)
Definition module_file : gostr := ver9 ++ [xfc; x01; x00; x00; x00; x00; x00; x00; x00] ++ [x07; x03] ++ bs "key" ++ [xff].
Theorem C200_refuted :
  load range_of 0 [take 21 module_file] = ([expire_msg 0 (bs "k" ++ [x00; x00]) (bs "1")], ONil, Lst 0 [] 0 0) /\
  load range_of 0 [module_file] = ([expire_msg 0 (bs "key") (bs "1")], ONil, Lst 0 [] 0 0).
Proof. split; vm_compute; reflexivity. Qed.
Example C200_ex : let f := ver9 ++ penc (item_pieces (IKey (SRaw (bs "k")) (RdbSpec.VStr (SRaw (bs "v"))))) ++ [xff] in
  fst (fst (load range_of 0 [f])) = fst (fst (load range_of 0 [f ++ bs "checksum"])) /\ snd (fst (load range_of 0 [f])) = ONil /\ snd (fst (load range_of 0 [removelast f])) <> ONil.
Proof. vm_compute. repeat split; discriminate. Qed.
Print Assumptions C200_cut_partial.

(** ** C127 for all files: what Load sends for the first bytes of a file is the first part of what it sends for all of it, but for the messages of the item
    within which the first bytes end, at most two. *)
Lemma loop_prefix more range j : forall fuel st s s', along more s s' ->
  exists pre x, fst (fst (load_loop range fuel st s)) = pre ++ x /\ pre `prefix_of` fst (fst (load_loop range (fuel + j) st s')) /\ (length x <= 2)%nat.
Proof.
  induction fuel as [|fuel IH]; intros st s s' A0.
  - exists [], []. split; [reflexivity|]. split; [apply prefix_nil|cbn; lia].
  - cbn [load_loop Nat.add]. destruct (lbind (load_opcode s) (fun op s1 => load_item range st op s1)) as [[[ms1 st1] go] s1| | | |] eqn:E1;
      [|exists [], []; split; [reflexivity|]; split; [apply prefix_nil|cbn; lia]..].
    apply lbind_ok in E1 as (op & s0 & Eo & Ei). unfold load_opcode in *. apply lbind_ok in Eo as (b & s00 & Eb & Eo). apply lift_ok in Eb. injection Eo as <- <-.
    pose proof (load_item_two _ _ _ _ _ _ _ _ Ei) as H2. destruct (byte_along _ _ _ _ _ A0 Eb) as (s0' & -> & A1). cbn [lift lbind]. destruct go.
    + destruct (follows_item _ _ _ _ _ _ _ _ A1 Ei) as [(s1' & -> & A2)|Hs].
      * destruct (IH st1 s1 s1' A2) as (pre & x & Hp & Hq & Hl). destruct (load_loop range fuel st1 s1) as [[r o] e]. destruct (load_loop range (fuel + j) st1 s1') as [[r' o'] e']. cbn [fst] in *.
        exists (ms1 ++ pre), x. split; [rewrite Hp; apply app_assoc|]. split; [apply prefix_app, Hq|exact Hl].
      * exists [], ms1. split; [|split; [apply prefix_nil|exact H2]]. rewrite Hs. destruct fuel; cbn; apply app_nil_r.
    + exists [], ms1. split; [reflexivity|]. split; [apply prefix_nil|exact H2].
Qed.
Theorem C127_any_partial range db F more :
  exists pre x, fst (fst (load range db [F])) = pre ++ x /\ pre `prefix_of` fst (fst (load range db [F ++ more])) /\ (length x <= 2)%nat.
Proof.
  unfold load. destruct F as [|y F]; [exists [], []; split; [reflexivity|]; split; [apply prefix_nil|cbn; lia]|]. set (F0 := y :: F) in *.
  assert (A0 : along more (new_rd [F0]) (new_rd [F0 ++ more])) by (exists [], F0; split; [reflexivity|]; left; split; [discriminate|reflexivity]).
  destruct (read_some 9 (new_rd [F0])) as [d s|? ?| |] eqn:E9; [|exists [], []; split; [reflexivity|]; split; [apply prefix_nil|cbn; lia]..].
  destruct (some_along _ _ _ _ _ _ A0 E9) as [(s' & -> & A1)|(Hs & _)].
  - rewrite (along_left _ _ _ A1), app_length. exact (loop_prefix more range (length more) _ _ _ _ A1).
  - rewrite Hs. exists [], []. split; [reflexivity|]. split; [apply prefix_nil|cbn; lia].
Qed.
Print Assumptions C127_any_partial.
