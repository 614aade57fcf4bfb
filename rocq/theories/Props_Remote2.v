(** * Props_Remote2: one goroutine's trouble and the others (C142) *)
From stdpp Require Import gmap.
From Verif Require Import Base GoFloat RespModel RespLib RespSpec ClientModel PoolModel RemoteModel RdbLib Props_Resp Props_Client Props_Pool Props_Remote.

(** ** C142: a malformed reply harms only the command it answers
    Full statement: whatever the server sends in reply to one command, the commands of other goroutines go on and return.
    Missing: a bulk length below -1 or above 2^48 ends the process. *)
(** the process has ended: nobody makes a step any more *)
Definition ended (r : remote) : Prop := forall a, mstep a r = None.
Lemma dead_ended r : m_dead r = true -> ended r.
Proof. intros H a. unfold mstep. rewrite H. reflexivity. Qed.
Theorem C142_ends_the_process_refuted i c q x r : ~ ended r -> p_th (m_pool r) !! i = Some (Lent c) -> m_job r !! i = Some (JSent q) ->
  m_conn r !! c = Some x -> recv (cn_in x) = RPanic -> exists r', mstep (MRecv i) r = Some (r', []) /\ ended r'.
Proof.
  intros Hd Ht Hj Hc Hr. destruct (m_dead r) eqn:E; [destruct Hd; apply dead_ended, E|]. unfold mstep. rewrite E, Ht, Hj, Hc, Hr. eexists. split; [reflexivity|]. apply dead_ended. reflexivity.
Qed.
(** Two goroutines have sent their requests. The first gets a length of -2, and the second, whose reply is there, never returns. *)
Example C142_refuted_ex :
  match mexec (call 1 (QGet (bs "a")) ++ connect 1 [bs "$-2" ++ crlf] ++ [MSend 1] ++ call 2 (QGet (bs "b")) ++ connect 2 [bs "$1" ++ crlf ++ bs "x" ++ crlf] ++ [MSend 2]) (new_client (ROpt 2 0 [])) with
  | Some (r, e) => m_dead r = false /\ m_job r !! 1%nat = Some (JSent (QGet (bs "a"))) /\ m_job r !! 2%nat = Some (JSent (QGet (bs "b"))) /\
      match mexec [MRecv 2] r with Some (_, [MDid _ _ _ v None]) => v = VStr (bs "x") | _ => False end /\
      match mexec [MRecv 1] r with Some (r', []) => m_dead r' = true | _ => False end
  | None => False
  end.
Proof. vm_compute. auto. Qed.

(** What holds: nothing else that a server can send ends the process. *)
Definition bad_length (s : gostr) : Prop := exists a L b n, s = a ++ (z2b 36 :: L) ++ b /\ LF ∉ L /\ atoi L = Some n /\ (n < -1 \/ n > 2 ^ 48).
Lemma bad_length_suffix p s : bad_length s -> bad_length (p ++ s).
Proof. intros (a & L & b & n & -> & H). exists (p ++ a), L, b, n. rewrite <- app_assoc. auto. Qed.
Definition suffix_of (s : rd) (S : gostr) : Prop := wf s /\ exists p, S = p ++ bytes_left s.
Lemma recv_suffix s S : suffix_of s S -> match recv s with ROk _ s' | RErr _ s' => suffix_of s' S | RPanic => bad_length S | RFuel => False end.
Proof.
  intros [Hw (p & ->)]. pose proof (C61_receive_terminates s Hw) as H. pose proof (proj1 (read_progress (Datatypes.S (length (bytes_left s)))) s Hw) as H2. fold (recv s) in H2.
  destruct (recv s) as [m s'|e s'| |] eqn:E.
  - destruct H as (c & -> & _). destruct H2 as [_ H2]. split; [exact H2|]. exists (p ++ c). apply app_assoc.
  - destruct H as (c & -> & _). destruct H2 as (_ & H2 & _). split; [exact H2|]. exists (p ++ c). apply app_assoc.
  - destruct (C59_panic_needs_bad_length_partial s Hw E) as (a & L & b & n & H1). apply bad_length_suffix. exists a, L, b, n. exact H1.
  - exact H.
Qed.
Lemma open_suffix rs S : forall s out, suffix_of s S -> match open_conn rs (Conn out s) with OOpen c => suffix_of (cn_in c) S | OFail _ => True | OCrash => bad_length S end.
Proof.
  induction rs as [|q rs IH]; intros s out H; cbn [open_conn cn_in cn_out]; [exact H|]. pose proof (recv_suffix s S H) as H1.
  destruct (recv s) as [m s'|e s'| |]; [|exact I|exact H1|contradiction]. destruct (snd (decode KString m)); [exact I|]. apply IH, H1.
Qed.
Lemma new_suffix cs : suffix_of (new_rd cs) (concat cs).
Proof. split; [unfold wf; cbn; lia|]. exists []. reflexivity. Qed.
Definition served (l : list mact) (S : gostr) : Prop := exists i cs, In (MDial i (inr cs)) l /\ S = concat cs.
Lemma served_app l l' S : served l S -> served (l ++ l') S.
Proof. intros (i & cs & H & E). exists i, cs. split; [apply in_or_app; auto|exact E]. Qed.
Theorem C142_only_bad_lengths_partial o l r e : mexec l (new_client o) = Some (r, e) -> m_dead r = true ->
  exists i cs, In (MDial i (inr cs)) l /\ bad_length (concat cs).
Proof.
  intros E.
  refine (let H := mexec_inv (fun l _ r => (forall c x, m_conn r !! c = Some x -> exists S, served l S /\ suffix_of (cn_in x) S) /\ (m_dead r = true -> exists S, served l S /\ bad_length S)) (new_client o) [] [] l r e _ _ E in _).
  { cbn [app] in H. destruct H as [_ H]. intros Hd. destruct (H Hd) as (S & (i & cs & H1 & ->) & H2). eauto. }
  Unshelve.
  { split; [intros c x Hx; cbn in Hx; rewrite lookup_empty in Hx; discriminate|discriminate]. }
  clear. intros l evs r a r' e' [HC HD] E. unfold mstep in E. destruct (m_dead r) eqn:Ed; [discriminate|].
  assert (HC' : forall c x, m_conn r !! c = Some x -> exists S, served (l ++ [a]) S /\ suffix_of (cn_in x) S).
  { intros c x Hx. destruct (HC c x Hx) as (S & H1 & H2). exists S. split; [apply served_app, H1|exact H2]. }
  assert (Hset : forall c y p j d, (d = true -> exists S, served (l ++ [a]) S /\ bad_length S) ->
     (exists S, served (l ++ [a]) S /\ suffix_of (cn_in y) S) -> r' = Remote (m_opt r) p (<[c := y]> (m_conn r)) j d ->
     (forall c x, m_conn r' !! c = Some x -> exists S, served (l ++ [a]) S /\ suffix_of (cn_in x) S) /\ (m_dead r' = true -> exists S, served (l ++ [a]) S /\ bad_length S)).
  { intros c y p j d Hd Hy ->. cbn [m_conn m_dead]. split; [|exact Hd]. intros c' x Hx. destruct (decide (c = c')) as [->|Hn]; [rewrite lookup_insert in Hx; injection Hx as <-; exact Hy|].
    rewrite lookup_insert_ne in Hx by exact Hn. exact (HC' c' x Hx). }
  assert (Hkeep : forall p j, r' = set_pool p j r -> (forall c x, m_conn r' !! c = Some x -> exists S, served (l ++ [a]) S /\ suffix_of (cn_in x) S) /\ (m_dead r' = true -> exists S, served (l ++ [a]) S /\ bad_length S)).
  { intros p j ->. unfold set_pool. cbn [m_conn m_dead]. rewrite Ed. split; [exact HC'|discriminate]. }
  destruct a as [i q|i|i x|i|i|i].
  - destruct (m_job r !! i); [discriminate|]. destruct (pstep _ _) as [[p e1]|]; [|discriminate]. injection E as <- <-. eapply Hkeep. reflexivity.
  - destruct (pstep _ _) as [[p e1]|]; [|discriminate].
    assert (H : exists j, r' = set_pool p j r) by (destruct e1 as [|[] []]; try (injection E as <- <-; eauto; fail); destruct (m_job r !! i) as [[]|]; try discriminate; injection E as <- <-; eauto).
    destruct H as [j H]. eapply Hkeep. exact H.
  - destruct x as [t|cs].
    + destruct (pstep _ _) as [[p e1]|]; [|discriminate]. destruct (m_job r !! i) as [[]|]; try discriminate. injection E as <- <-. eapply Hkeep. reflexivity.
    + assert (Hs : served (l ++ [MDial i (inr cs)]) (concat cs)) by (exists i, cs; split; [apply in_or_app; right; left; reflexivity|reflexivity]).
      pose proof (open_suffix (open_requests (m_opt r)) (concat cs) (new_rd cs) [] (new_suffix cs)) as Ho. destruct (open_conn _ _) as [c|er|].
      * destruct (pstep _ _) as [[p e1]|]; [|discriminate]. injection E as <- <-. eapply (Hset _ c); [|eauto|reflexivity]. discriminate.
      * destruct (pstep _ _) as [[p e1]|]; [|discriminate]. destruct (m_job r !! i) as [[]|]; try discriminate. injection E as <- <-. eapply Hkeep. reflexivity.
      * destruct (p_th (m_pool r) !! i) as [[]|]; try discriminate. injection E as <- <-. split; [exact HC'|]. intros _. eauto.
  - destruct (p_th (m_pool r) !! i) as [[]|]; try discriminate. destruct (m_job r !! i) as [[]|]; try discriminate. destruct (m_conn r !! _) as [x|] eqn:Ex; [|discriminate]. injection E as <- <-.
    eapply Hset; [| |unfold set_conn; rewrite Ed; reflexivity]; [discriminate|exact (HC' _ _ Ex)].
  - destruct (p_th (m_pool r) !! i) as [[]|]; try discriminate. destruct (m_job r !! i) as [[]|]; try discriminate. destruct (m_conn r !! _) as [x|] eqn:Ex; [|discriminate].
    destruct (HC' _ _ Ex) as (S & H1 & H2). pose proof (recv_suffix _ _ H2) as H3. destruct (recv (cn_in x)) as [m s'|er s'| |].
    + destruct (decode (kind_of q) m) as [v er]. injection E as <- <-. eapply Hset; [| |unfold set_conn; rewrite Ed; reflexivity]; [discriminate|exists S; split; [exact H1|exact H3]].
    + injection E as <- <-. eapply Hset; [| |unfold set_conn; rewrite Ed; reflexivity]; [discriminate|exists S; split; [exact H1|exact H3]].
    + injection E as <- <-. split; [exact HC'|eauto].
    + contradiction.
  - destruct (m_job r !! i) as [[]|]; try discriminate. destruct (pstep _ _) as [[p e1]|]; [|discriminate]. injection E as <- <-. eapply Hkeep. reflexivity.
Qed.
(** Errors, unknown types, unfinished replies and a closed stream are no such thing. *)
Example C142_only_bad_lengths_ex :
  match mexec (call 1 (QGet (bs "a")) ++ connect 1 [bs "?oops" ++ crlf ++ bs "-ERR" ++ crlf ++ bs "$5" ++ crlf ++ bs "ab"] ++ done 1 ++
               call 1 (QGet (bs "a")) ++ done 1 ++ call 1 (QGet (bs "a")) ++ done 1 ++ call 1 (QGet (bs "a")) ++ done 1) (new_client (ROpt 1 0 [])) with
  | Some (r, e) => m_dead r = false /\ length (returns 1 e) = 4%nat
  | None => False
  end.
Proof. vm_compute. auto. Qed.
