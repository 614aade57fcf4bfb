From stdpp Require Import gmap list.
From Verif Require Import Base GoFloat RespModel RespSpec RespLib ClientModel PoolModel WriterModel.

(** * C187, C188, C189: writers that fail (redis/conn.go) *)

(** ** C187: Send

    The small specification: each message is one Write call of the transport.  The first call that fails takes a part of its message;
    that Send and all later ones return its error, and nothing more is written. *)
Fixpoint on_the_wire (plan : list (option (nat * gostr))) (ts : list gostr) : list gostr * list (option gostr) :=
  match ts with
  | [] => ([], [])
  | t :: r =>
    match plan with
    | Some (n, e) :: _ => ([take n t], map (fun _ => Some e) (t :: r))
    | _ => let '(out, es) := on_the_wire (tail plan) r in (t :: out, None :: es)
    end
  end.

Lemma serialize_nonempty m : serialize m <> [].
Proof. destruct m; discriminate. Qed.
Lemma w_send_ok m b : b_buf b = [] -> b_err b = None -> let t := serialize m in
  w_send m b =
  match d_plan (b_dev b) with
  | Some (n, e) :: r => Bw (if Nat.leb (length t) bufsize then drop n t else []) (Some e) (Dev (d_out (b_dev b) ++ [take n t]) r)
  | _ => Bw [] None (Dev (d_out (b_dev b) ++ [t]) (tail (d_plan (b_dev b))))
  end.
Proof.
  destruct b as [buf err d]. cbn [b_buf b_err b_dev]. intros -> ->. cbn zeta. unfold w_send. pose proof (serialize_nonempty m) as Ht. set (t := serialize m) in *. clearbody t. unfold bw_write, available. cbn [b_buf b_err b_dev length]. rewrite Nat.sub_0_r.
  destruct (Nat.leb (length t) bufsize).
  - cbn [b_err app]. unfold bw_flush. cbn [b_err b_buf b_dev]. destruct t as [|x t]; [congruence|]. unfold dev_write. destruct (d_plan d) as [|[[n e]|] r]; cbn [tail]; try reflexivity.
    f_equal. destruct (Nat.min_spec n (length (x :: t))) as [[_ ->]|[L ->]]; [reflexivity|]. rewrite !drop_ge by lia. reflexivity.
  - unfold bw_direct, dev_write. cbn [b_dev]. destruct (d_plan d) as [|[[n e]|] r]; cbn [tail b_err]; reflexivity.
Qed.
Lemma w_sends_err ms : forall b e, b_err b = Some e -> w_sends ms b = (map (fun _ => Some e) ms, b).
Proof.
  induction ms as [|m r IH]; intros b e He; [reflexivity|]. cbn [w_sends map]. unfold w_send, bw_write. rewrite He, He, He. rewrite (IH _ _ He). reflexivity.
Qed.
Lemma w_sends_wire ms : forall b, b_buf b = [] -> b_err b = None ->
  let '(es, b') := w_sends ms b in d_out (b_dev b') = d_out (b_dev b) ++ fst (on_the_wire (d_plan (b_dev b)) (map serialize ms)) /\ es = snd (on_the_wire (d_plan (b_dev b)) (map serialize ms)).
Proof.
  induction ms as [|m r IH]; intros b Hb He; cbn [w_sends map on_the_wire]; [rewrite app_nil_r; split; reflexivity|].
  rewrite (w_send_ok m _ Hb He).
  destruct (d_plan (b_dev b)) as [|[[n e]|] pl].
  - pose proof (IH (Bw [] None (Dev (d_out (b_dev b) ++ [serialize m]) [])) eq_refl eq_refl) as H. cbn [tail b_err] in *. destruct (w_sends r _) as [es b']. cbn [b_dev d_out d_plan] in H.
    destruct (on_the_wire [] (map serialize r)) as [o x]. cbn [fst snd] in *. destruct H as [-> ->]. rewrite <- app_assoc. split; reflexivity.
  - match goal with |- context [w_sends r ?x] => rewrite (w_sends_err r x e eq_refl) end. cbn [b_dev d_out b_err fst snd]. split; [reflexivity|]. f_equal. rewrite map_map. reflexivity.
  - pose proof (IH (Bw [] None (Dev (d_out (b_dev b) ++ [serialize m]) pl)) eq_refl eq_refl) as H. cbn [tail b_err] in *. destruct (w_sends r _) as [es b']. cbn [b_dev d_out d_plan] in H.
    destruct (on_the_wire pl (map serialize r)) as [o x]. cbn [fst snd] in *. destruct H as [-> ->]. rewrite <- app_assoc. split; reflexivity.
Qed.
Theorem C187_send_exact plan ms :
  let '(es, b) := w_sends ms (new_bw (Dev [] plan)) in (d_out (b_dev b), es) = on_the_wire plan (map serialize ms).
Proof.
  pose proof (w_sends_wire ms (new_bw (Dev [] plan)) eq_refl eq_refl) as H. destruct (w_sends ms (new_bw (Dev [] plan))) as [es b]. cbn in H. destruct H as [-> ->].
  destruct (on_the_wire plan (map serialize ms)); reflexivity.
Qed.
(** In words of bytes: what is on the wire is what was acknowledged and, of the first message that was not, a beginning. *)
Theorem C187_prefix plan ms :
  let '(es, b) := w_sends ms (new_bw (Dev [] plan)) in
  (es = map (fun _ => None) ms /\ concat (d_out (b_dev b)) = concat (map serialize ms)) \/
  exists ms1 m ms2 e t, ms = ms1 ++ m :: ms2 /\ es = map (fun _ => None) ms1 ++ map (fun _ => Some e) (m :: ms2) /\
    t `prefix_of` serialize m /\ concat (d_out (b_dev b)) = concat (map serialize ms1) ++ t.
Proof.
  pose proof (C187_send_exact plan ms) as H. destruct (w_sends ms (new_bw (Dev [] plan))) as [es b].
  assert (G : forall ms plan out es, (out, es) = on_the_wire plan (map serialize ms) ->
    (es = map (fun _ => None) ms /\ concat out = concat (map serialize ms)) \/
    exists ms1 m ms2 e t, ms = ms1 ++ m :: ms2 /\ es = map (fun _ => None) ms1 ++ map (fun _ => Some e) (m :: ms2) /\
      t `prefix_of` serialize m /\ concat out = concat (map serialize ms1) ++ t); [|exact (G _ _ _ _ H)].
  clear. induction ms as [|m r IH]; intros plan out es E.
  - cbn in E. injection E as -> ->. left. split; reflexivity.
  - cbn [map on_the_wire] in E.
    assert (K : forall pl, (out, es) = (let '(o, x) := on_the_wire pl (map serialize r) in (serialize m :: o, None :: x)) ->
      (es = map (fun _ => None) (m :: r) /\ concat out = concat (map serialize (m :: r))) \/
      exists ms1 m' ms2 e t, m :: r = ms1 ++ m' :: ms2 /\ es = map (fun _ => None) ms1 ++ map (fun _ => Some e) (m' :: ms2) /\
      t `prefix_of` serialize m' /\ concat out = concat (map serialize ms1) ++ t).
    { intros pl E'. destruct (on_the_wire pl (map serialize r)) as [o x] eqn:Eo. injection E' as -> ->. destruct (IH _ _ _ (eq_sym Eo)) as [[-> Ho]|(ms1 & m' & ms2 & e & t & -> & -> & Hp & Ho)].
      - left. split; [reflexivity|]. cbn. rewrite Ho. reflexivity.
      - right. exists (m :: ms1), m', ms2, e, t. split; [reflexivity|]. split; [reflexivity|]. split; [exact Hp|]. cbn. rewrite Ho, app_assoc. reflexivity. }
    destruct plan as [|[[n e]|] pl]; [exact (K _ E)| |exact (K _ E)].
    injection E as -> ->. right. exists [], m, r, e, (take n (serialize m)). split; [reflexivity|]. split; [cbn; rewrite map_map; reflexivity|].
    split; [exists (drop n (serialize m)); symmetry; apply take_drop|]. cbn. rewrite app_nil_r. reflexivity.
Qed.
Example C187_nonvacuous :
  let '(es, b) := w_sends [MSimple (bs "a"); MBulk (bs "bc"); MInt 5] (new_bw (Dev [] [None; Some (4%nat, bs "broken pipe")])) in
  (d_out (b_dev b), es) = ([bs "+a" ++ eof; bs "$2" ++ eof], [None; Some (bs "broken pipe"); Some (bs "broken pipe")]).
Proof. vm_compute. reflexivity. Qed.

(** ** C188: commands on a connection whose writer failed

    As long as no write fails, commands do what ClientModel.v says (C64-C71, C118). *)
Theorem C188_without_failures qs c d : d_plan d = [] ->
  w_exec_all qs (WConn (new_bw d) c) =
  match exec_all qs (Conn (concat (d_out d)) c) with
  | Some (l, c') => Some (l, WConn (new_bw (Dev (d_out d ++ map (fun q => send (convert_to_message (request q))) qs) [])) (cn_in c'))
  | None => None
  end /\
  forall l c', exec_all qs (Conn (concat (d_out d)) c) = Some (l, c') -> cn_out c' = concat (d_out d ++ map (fun q => send (convert_to_message (request q))) qs).
Proof.
  revert c d. induction qs as [|q r IH]; intros c d Hp; cbn [w_exec_all exec_all map].
  - split; [rewrite app_nil_r; destruct d as [o pl]; cbn in *; subst pl; reflexivity|]. intros l c' E. injection E as <- <-. rewrite app_nil_r. reflexivity.
  - unfold w_exec, exec. cbn [wc_w wc_in cn_in cn_out].
    assert (Es : w_send (convert_to_message (request q)) (new_bw d) = new_bw (Dev (d_out d ++ [send (convert_to_message (request q))]) [])).
    { rewrite (w_send_ok _ (new_bw d) eq_refl eq_refl). cbn [new_bw b_dev]. rewrite Hp. reflexivity. }
    rewrite Es. cbn [new_bw b_err].
    set (d' := Dev (d_out d ++ [send (convert_to_message (request q))]) []).
    assert (Eo : concat (d_out d) ++ send (convert_to_message (request q)) = concat (d_out d')) by (cbn; rewrite concat_app; cbn; rewrite app_nil_r; reflexivity).
    assert (Ed : d_out d' ++ map (fun q => send (convert_to_message (request q))) r = d_out d ++ send (convert_to_message (request q)) :: map (fun q => send (convert_to_message (request q))) r) by (cbn; rewrite <- app_assoc; reflexivity).
    destruct (recv c) as [m s|e s| |]; try (split; [reflexivity|discriminate]).
    + destruct (decode (kind_of q) m) as [v e]. rewrite Eo. destruct (IH s d' eq_refl) as [IH1 IH2]. change (Bw [] None d') with (new_bw d'). rewrite IH1. rewrite Ed in *.
      destruct (exec_all r (Conn (concat (d_out d')) s)) as [[l c']|]; [|split; [reflexivity|discriminate]]. split; [reflexivity|]. intros l0 c0 E. injection E as <- <-. apply (IH2 _ _ eq_refl).
    + rewrite Eo. destruct (IH s d' eq_refl) as [IH1 IH2]. change (Bw [] None d') with (new_bw d'). rewrite IH1. rewrite Ed in *.
      destruct (exec_all r (Conn (concat (d_out d')) s)) as [[l c']|]; [|split; [reflexivity|discriminate]]. split; [reflexivity|]. intros l0 c0 E. injection E as <- <-. apply (IH2 _ _ eq_refl).
Qed.
(** Full statement: a command succeeds if the transport and the server are in order when it is executed.  False after a failed write:
    every later command on the connection returns the error of that time, sends nothing and reads nothing. *)
Theorem C188_dead_refuted qs c e : b_err (wc_w c) = Some e ->
  w_exec_all qs c = Some (map (fun q => (zero_val (kind_of q), Some (XText e))) qs, c).
Proof.
  intros He. induction qs as [|q r IH]; [reflexivity|]. cbn [w_exec_all map]. unfold w_exec, w_send, bw_write. rewrite He, He, He. destruct c as [b i]. cbn [wc_w wc_in] in *. rewrite IH. reflexivity.
Qed.
(** the connection goes back to the pool all the same (the deferred Put, pool.go:101) *)
Definition by_goroutine (i : nat) (a : pact) : Prop :=
  match a with PGet j | PRun j | PDialOk j | PDialFail j | PCancel j | PRelease j => i = j | _ => False end.
Definition solo (i : nat) (p : pool) : Prop :=
  (1 <= p_cap p)%nat /\ (forall j pc, p_th p !! j = Some pc -> j = i) /\
  ((p_next p = 0%nat /\ p_size p = 0%nat /\ p_chan p = [] /\ match p_th p !! i with None | Some GTry | Some GLock | Some GCheck | Some GDial => True | _ => False end) \/
   (p_next p = 1%nat /\ p_size p = 1%nat /\ p_chan p = [0%nat] /\ match p_th p !! i with None | Some GTry | Some GUnlock | Some GWait => True | _ => False end) \/
   (p_next p = 1%nat /\ p_size p = 1%nat /\ p_chan p = [] /\ match p_th p !! i with Some (GSend 0) | Some (Lent 0) | Some (PSend 0) => True | _ => False end)).
Lemma solo_only i pc (m : gmap nat ppc) : (forall j q, m !! j = Some q -> j = i) -> forall j q, <[i := pc]> m !! j = Some q -> j = i.
Proof. intros H j q E. destruct (decide (j = i)) as [->|N]; [reflexivity|]. rewrite lookup_insert_ne in E by congruence. eauto. Qed.
Lemma solo_only_del i (m : gmap nat ppc) : (forall j q, m !! j = Some q -> j = i) -> forall j q, delete i m !! j = Some q -> j = i.
Proof. intros H j q E. apply lookup_delete_Some in E as [_ E]. eauto. Qed.
Lemma solo_step i a p p' e : solo i p -> by_goroutine i a -> pstep a p = Some (p', e) -> solo i p' /\ forall c, EGot i c ∈ e -> c = 0%nat.
Proof.
  intros (Hc & Ho & H) Hb E. destruct p as [cap size ch lk nx th]. cbn [p_cap p_size p_chan p_lock p_next p_th] in *.
  assert (N : forall c l, l = ([] : list pevent) -> EGot i c ∈ l -> c = 0%nat) by (intros c l -> X; inversion X).
  assert (N1 : forall c x, x <> EGot i c -> EGot i c ∈ [x] -> c = 0%nat) by (intros c x Hx X; apply elem_of_list_singleton in X; congruence).
  destruct a as [j|j|j|j|j|j|j|j|j]; cbn in Hb; try (destruct Hb; fail); subst j; cbn -[Nat.ltb insert delete] in E;
    destruct H as [(Hn & Hs & Hch & Ht)|[(Hn & Hs & Hch & Ht)|(Hn & Hs & Hch & Ht)]]; subst nx size ch; destruct (th !! i) as [[| | | |[|c]| | |[|c]|[|c]| |]|] eqn:Ei; try (destruct Ht; fail); try discriminate E.
  all: repeat match type of E with (if ?b then _ else _) = _ => destruct b eqn:Eb end; try discriminate E; injection E as <- <-.
  all: try (exfalso; apply Nat.ltb_ge in Eb; cbn in Eb; lia).
  all: split; [split; [exact Hc|split; [first [apply solo_only; exact Ho | apply solo_only_del; exact Ho]|]]; cbn; rewrite ?lookup_insert, ?lookup_delete; tauto | intros c0 X; first [apply (N c0 _ eq_refl X) | apply elem_of_list_singleton in X; congruence]].
Qed.
Lemma solo_exec i s : forall p p' e, solo i p -> Forall (by_goroutine i) s -> pexec s p = Some (p', e) -> forall c, EGot i c ∈ e -> c = 0%nat.
Proof.
  induction s as [|a r IH]; intros p p' e H Hs E c Hc; cbn in E; [injection E as <- <-; inversion Hc|].
  destruct (pstep a p) as [[p1 e1]|] eqn:E1; [|discriminate]. destruct (pexec r p1) as [[p2 e2]|] eqn:E2; [|discriminate]. injection E as <- <-.
  inversion Hs as [|? ? Ha Hr]; subst. destruct (solo_step _ _ _ _ _ H Ha E1) as [H1 Hg]. apply elem_of_app in Hc as [Hc|Hc]; [auto|]. eapply IH; [exact H1|exact Hr|exact E2|exact Hc].
Qed.
(** One goroutine is always given the same connection, whatever the capacity of the pool: after one failed write all its commands fail. *)
Theorem C188_same_connection i n s p evs c : Forall (by_goroutine i) s -> pexec s (pool_init n) = Some (p, evs) -> EGot i c ∈ evs -> c = 0%nat.
Proof.
  intros Hs E. eapply solo_exec; [|exact Hs|exact E]. split; [cbn; destruct (Z.leb_spec n 0); lia|]. split; [intros j pc X; cbn in X; rewrite lookup_empty in X; discriminate|].
  left. cbn. rewrite lookup_empty. tauto.
Qed.
Example C188_nonvacuous :
  match w_exec_all [QGet (bs "a"); QGet (bs "b"); QStrLen (bs "c")] (WConn (new_bw (Dev [] [None; Some (0%nat, bs "i/o timeout"); None])) (new_rd [bs "$1" ++ eof ++ bs "x" ++ eof ++ bs "$1" ++ eof ++ bs "y" ++ eof])) with
  | Some (l, c) => l = [(VStr (bs "x"), None); (VStr [], Some (XText (bs "i/o timeout"))); (VInt 0, Some (XText (bs "i/o timeout")))] /\ length (concat (d_out (b_dev (wc_w c)))) = 20%nat
  | None => False end.
Proof. vm_compute. split; reflexivity. Qed.

(** ** C189: a snapshot that could not be saved is reported

    The file is written in blocks: full ones while the snapshot is read, and the last one by the deferred Flush. *)
Definition is_blocks (s : gostr) (bl : list gostr) : Prop :=
  s = concat bl /\ Forall (fun b => length b = bufsize) (removelast bl) /\ Forall (fun b => b <> [] /\ (length b <= bufsize)%nat) bl.
(** the error of the last of some writes: that of the first that failed (C187) *)
Definition failed (es : list (option gostr)) : option gostr := List.last es None.

Fixpoint bw_bytes (p : gostr) (b : bw) : bw := match p with [] => b | c :: r => let b1 := bw_byte c b in match b_err b1 with Some _ => b1 | None => bw_bytes r b1 end end.
Lemma w_copy_bytes p : forall s b rest, bytes_left s = p ++ rest -> wf s ->
  let b' := bw_bytes p b in
  w_copy (length p) b s = match b_err b' with
                          | Some e => match p with [] => w_copy 0 b s | _ => (b', SvWrite e) end
                          | None => w_copy (length p) b s end /\
  (b_err b' = None -> exists s', w_copy (length p) b s = (b', SvOk x00 0 s') /\ bytes_left s' = rest).
Proof.
  induction p as [|c p IH]; intros s b rest E Hw; cbn zeta.
  - cbn. split; [destruct (b_err b); reflexivity|]. intros _. exists s. split; [reflexivity|exact E].
  - pose proof (read_byte_spec s Hw) as H. rewrite E in H. destruct H as (s1 & H1 & H2 & W1). cbn [length w_copy bw_bytes]. rewrite H1.
    destruct (b_err (bw_byte c b)) as [e|] eqn:Eb; [rewrite Eb; split; [reflexivity|discriminate]|].
    destruct (IH s1 (bw_byte c b) rest H2 W1) as [A B]. split.
    + destruct (b_err (bw_bytes p (bw_byte c b))) as [e|] eqn:Ee; [|reflexivity]. rewrite A. destruct p; [cbn in Ee; congruence|reflexivity].
    + exact B.
Qed.
(** filling the buffer *)
Lemma bw_bytes_fill p : forall buf d, (length buf + length p <= bufsize)%nat -> bw_bytes p (Bw buf None d) = Bw (buf ++ p) None d.
Proof.
  induction p as [|c p IH]; intros buf d Hl; cbn [bw_bytes]; [rewrite app_nil_r; reflexivity|]. cbn [length] in Hl.
  unfold bw_byte, available. cbn [b_err b_buf]. destruct (Nat.eqb_spec (bufsize - length buf) 0); [lia|]. cbn [b_err b_buf b_dev]. rewrite IH by (rewrite app_length; cbn; lia).
  rewrite <- app_assoc. reflexivity.
Qed.
Lemma bw_bytes_app p q b : bw_bytes (p ++ q) b = match b_err (bw_bytes p b) with Some _ => match p with [] => bw_bytes q b | _ => bw_bytes p b end | None => bw_bytes q (bw_bytes p b) end.
Proof.
  revert b. induction p as [|c p IH]; intros b; cbn [app bw_bytes]; [destruct (b_err b); reflexivity|].
  destruct (b_err (bw_byte c b)) as [e|] eqn:Eb; [rewrite Eb; reflexivity|]. rewrite IH. destruct (b_err (bw_bytes p (bw_byte c b))) eqn:Ee; [|reflexivity].
  destruct p; [cbn in Ee; congruence|reflexivity].
Qed.
Lemma failed_map (e : gostr) (l : list gostr) : l <> [] -> failed (map (fun _ => Some e) l) = Some e.
Proof. unfold failed. induction l as [|x [|y l] IH]; intros H; [congruence|reflexivity|]. change (List.last (map (fun _ => Some e) (y :: l)) None = Some e). apply IH. discriminate. Qed.
Lemma failed_cons es : failed (None :: es) = failed es.
Proof. unfold failed. destruct es; reflexivity. Qed.
Lemma blocks_write bl : forall x d, x <> [] -> (length x <= bufsize)%nat -> Forall (fun b => length b = bufsize) (removelast (x :: bl)) -> Forall (fun b => b <> [] /\ (length b <= bufsize)%nat) bl ->
  let b := bw_bytes (concat bl) (Bw x None d) in
  d_out (b_dev (bw_flush b)) = d_out d ++ fst (on_the_wire (d_plan d) (x :: bl)) /\ b_err b = failed (snd (on_the_wire (d_plan d) (removelast (x :: bl)))).
Proof.
  induction bl as [|y bl IH]; intros x d Hx Lx Hf Hb; cbn zeta.
  - split; [|reflexivity]. change (bw_bytes (concat []) (Bw x None d)) with (Bw x None d). unfold bw_flush. cbn [b_err b_buf b_dev]. destruct x as [|x0 x]; [congruence|].
    unfold dev_write. cbn [on_the_wire]. destruct (d_plan d) as [|[[n e]|] pl]; reflexivity.
  - inversion Hb as [|? ? [Hy Ly] Hb']; subst. destruct y as [|c y]; [congruence|].
    change (removelast (x :: (c :: y) :: bl)) with (x :: removelast ((c :: y) :: bl)) in *. inversion Hf as [|? ? Fx Hf']; subst.
    cbn [concat app bw_bytes].
    assert (Eb : bw_byte c (Bw x None d) = match d_plan d with
      | Some (n, e) :: r => Bw (drop n x) (Some e) (Dev (d_out d ++ [take n x]) r)
      | _ => Bw [c] None (Dev (d_out d ++ [x]) (tail (d_plan d))) end).
    { unfold bw_byte, available. cbn [b_err b_buf]. rewrite Fx, Nat.sub_diag. cbn [Nat.eqb]. unfold bw_flush. cbn [b_err b_buf b_dev]. destruct x as [|x0 x]; [congruence|].
      unfold dev_write. destruct (d_plan d) as [|[[n e]|] pl]; cbn [b_err b_buf b_dev app tail]; try reflexivity. f_equal.
      destruct (Nat.min_spec n (length (x0 :: x))) as [[_ ->]|[L ->]]; [reflexivity|]. rewrite !drop_ge by lia. reflexivity. }
    rewrite Eb.
    assert (K : forall pl,
      let b := bw_bytes (y ++ concat bl) (Bw [c] None (Dev (d_out d ++ [x]) pl)) in
      d_out (b_dev (bw_flush b)) = (d_out d ++ [x]) ++ fst (on_the_wire pl ((c :: y) :: bl)) /\ b_err b = failed (snd (on_the_wire pl (removelast ((c :: y) :: bl))))).
    { intros pl. cbn zeta. rewrite bw_bytes_app, bw_bytes_fill by (cbn in *; lia). cbn [b_err app]. apply (IH (c :: y) (Dev (d_out d ++ [x]) pl)); assumption. }
    destruct (d_plan d) as [|[[n e]|] pl].
    + cbn [b_err tail]. destruct (K []) as [A B]. rewrite A, B. cbn [on_the_wire tail]. 
      change (on_the_wire [] (x :: removelast ((c :: y) :: bl))) with (let '(o, es) := on_the_wire [] (removelast ((c :: y) :: bl)) in (x :: o, None :: es)).
      destruct (on_the_wire [] (removelast ((c :: y) :: bl))) as [o1 e1]. destruct (on_the_wire [] bl) as [o2 e2]. cbn [fst snd]. rewrite failed_cons, <- app_assoc. split; reflexivity.
    + cbn [b_err]. unfold bw_flush. cbn [b_err b_dev d_out on_the_wire fst snd]. split; [reflexivity|]. symmetry. apply failed_map. discriminate.
    + cbn [b_err tail]. destruct (K pl) as [A B]. rewrite A, B.
      change (on_the_wire (None :: pl) (x :: removelast ((c :: y) :: bl))) with (let '(o, es) := on_the_wire pl (removelast ((c :: y) :: bl)) in (x :: o, None :: es)).
      change (on_the_wire (None :: pl) (x :: (c :: y) :: bl)) with (let '(o, es) := on_the_wire pl ((c :: y) :: bl) in (x :: o, None :: es)).
      destruct (on_the_wire pl (removelast ((c :: y) :: bl))) as [o1 e1]. destruct (on_the_wire pl ((c :: y) :: bl)) as [o2 e2]. cbn [fst snd]. rewrite failed_cons, <- app_assoc. split; reflexivity.
Qed.
Lemma blocks_all bl d : Forall (fun b => length b = bufsize) (removelast bl) -> Forall (fun b => b <> [] /\ (length b <= bufsize)%nat) bl ->
  let b := bw_bytes (concat bl) (new_bw d) in
  d_out (b_dev (bw_flush b)) = d_out d ++ fst (on_the_wire (d_plan d) bl) /\ b_err b = failed (snd (on_the_wire (d_plan d) (removelast bl))).
Proof.
  destruct bl as [|x bl]; intros Hf Hb; cbn zeta.
  - cbn. rewrite app_nil_r. split; reflexivity.
  - inversion Hb as [|? ? [Hx Lx] Hb']; subst. cbn [concat]. rewrite bw_bytes_app. unfold new_bw. rewrite bw_bytes_fill by (cbn; lia). cbn [b_err app]. apply blocks_write; assumption.
Qed.

Lemma save_exact payload bl rest s plan : int64 (zlen payload) -> is_blocks payload bl -> wf s ->
  bytes_left s = bs "$" ++ itoa (zlen payload) ++ crlf ++ payload ++ rest ->
  let '(d, r) := w_save s (Dev [] plan) in
  d_out d = fst (on_the_wire plan bl) /\
  match failed (snd (on_the_wire plan (removelast bl))) with
  | Some e => r = SvWrite e
  | None => exists s', r = SvOk (z2b 36) (zlen payload) s' /\ bytes_left s' = rest
  end.
Proof.
  intros Hn (Hc & Hf & Hb) W0 E.
  pose proof (read_byte_spec s W0) as H. rewrite E in H.
  change (bs "$" ++ itoa (zlen payload) ++ crlf ++ payload ++ rest) with (z2b 36 :: itoa (zlen payload) ++ crlf ++ payload ++ rest) in H. cbn match in H. destruct H as (s1 & H1 & H2 & W1).
  destruct (read_num_any s1 _ _ H2 Hn W1) as (s2 & H3 & H4 & W2).
  unfold w_save. rewrite H1. replace (Byte.eqb (z2b 36) (z2b 36)) with true by reflexivity. rewrite H3.
  replace (Z.to_nat (zlen payload)) with (length payload) by (unfold zlen; lia).
  destruct (w_copy_bytes payload s2 (new_bw (Dev [] plan)) rest H4 W2) as [A B].
  destruct (blocks_all bl (Dev [] plan) Hf Hb) as [C D]. rewrite <- Hc in C, D. cbn [d_out d_plan app] in C, D.
  destruct (b_err (bw_bytes payload (new_bw (Dev [] plan)))) as [e|] eqn:Ee.
  - rewrite <- D, A. destruct payload as [|c0 payload]; [cbn in Ee; discriminate|]. split; [exact C|reflexivity].
  - rewrite <- D. destruct (B eq_refl) as (s' & -> & Hs). split; [exact C|]. exists s'. split; [reflexivity|exact Hs].
Qed.
(** What is in the file, and what is returned: the error of the first write that failed, except for the last one. *)
Theorem C189_exact_partial payload bl rest cs plan : int64 (zlen payload) -> is_blocks payload bl ->
  concat cs = bs "$" ++ itoa (zlen payload) ++ crlf ++ payload ++ rest ->
  let '(d, r) := w_save (new_rd cs) (Dev [] plan) in
  d_out d = fst (on_the_wire plan bl) /\
  match failed (snd (on_the_wire plan (removelast bl))) with
  | Some e => r = SvWrite e
  | None => exists s', r = SvOk (z2b 36) (zlen payload) s' /\ bytes_left s' = rest
  end.
Proof. intros Hn Hb E. apply save_exact; auto. unfold wf. cbn. lia. Qed.
(** every text has its blocks *)
Lemma blocks_exist s : exists bl, is_blocks s bl.
Proof.
  pose proof bufsize_pos as Hp. remember (length s) as n eqn:En. revert s En. induction (lt_wf n) as [n _ IH]. intros s ->.
  destruct s as [|c s]; [exists []; split; [reflexivity|split; constructor]|].
  destruct (Nat.le_gt_cases (length (c :: s)) bufsize) as [L|L].
  - exists [c :: s]. split; [cbn; rewrite app_nil_r; reflexivity|]. split; [constructor|]. constructor; [split; [discriminate|exact L]|constructor].
  - destruct (IH (length (drop bufsize (c :: s))) ltac:(rewrite drop_length; cbn in *; lia) _ eq_refl) as (bl & Hc & Hf & Hb).
    assert (Lt : length (take bufsize (c :: s)) = bufsize) by (rewrite take_length; lia).
    exists (take bufsize (c :: s) :: bl). split; [cbn [concat]; rewrite <- Hc; symmetry; apply take_drop|]. split.
    + destruct bl as [|x bl]; [constructor|]. change (removelast (take bufsize (c :: s) :: x :: bl)) with (take bufsize (c :: s) :: removelast (x :: bl)). constructor; assumption.
    + constructor; [split; [intros X; rewrite X in Lt; cbn in Lt; lia|lia]|exact Hb].
Qed.
Lemma wire_all ts : forall plan, Forall (fun x => x = None) (take (length ts) plan) -> on_the_wire plan ts = (ts, map (fun _ => None) ts).
Proof.
  induction ts as [|t r IH]; intros plan H; [reflexivity|]. cbn [on_the_wire map]. destruct plan as [|[x|] pl]; cbn [length take tail] in *.
  - rewrite IH by (rewrite take_nil; constructor). reflexivity.
  - inversion H; discriminate.
  - inversion H; subst. rewrite IH by assumption. reflexivity.
Qed.
Lemma failed_none {A} (l : list A) : failed (map (fun _ => None) l) = None.
Proof. unfold failed. induction l as [|x [|y l] IH]; [reflexivity|reflexivity|]. exact IH. Qed.

(** Full statement: if ReadWithWriter returns no error, the file holds the snapshot.  So it is if the last write succeeds too. *)
Theorem C189_complete_partial payload bl rest cs plan : int64 (zlen payload) -> is_blocks payload bl ->
  concat cs = bs "$" ++ itoa (zlen payload) ++ crlf ++ payload ++ rest -> Forall (fun x => x = None) (take (length bl) plan) ->
  let '(d, r) := w_save (new_rd cs) (Dev [] plan) in concat (d_out d) = payload /\ exists s', r = SvOk (z2b 36) (zlen payload) s' /\ bytes_left s' = rest.
Proof.
  intros Hn Hb E Hp. pose proof (C189_exact_partial payload bl rest cs plan Hn Hb E) as H. destruct (w_save (new_rd cs) (Dev [] plan)) as [d r].
  rewrite (wire_all _ _ Hp) in H. assert (Hp' : Forall (fun x => x = None) (take (length (removelast bl)) plan)).
  { rewrite <- (take_drop (length (removelast bl)) (take (length bl) plan)) in Hp. apply Forall_app in Hp as [Hp _]. rewrite take_take in Hp.
    rewrite Nat.min_l in Hp; [exact Hp|]. clear. induction bl as [|x [|y bl] IH]; cbn in *; lia. }
  rewrite (wire_all _ _ Hp') in H. cbn [fst snd] in H. rewrite failed_none in H. destruct H as [-> H]. split; [symmetry; apply Hb|exact H].
Qed.
(** and for every snapshot there is a failure that is not reported, after which the file is not the snapshot *)
Theorem C189_silent_refuted payload bl rest cs k e more : int64 (zlen payload) -> is_blocks payload bl -> (k < length (List.last bl []))%nat ->
  concat cs = bs "$" ++ itoa (zlen payload) ++ crlf ++ payload ++ rest ->
  let '(d, r) := w_save (new_rd cs) (Dev [] (repeat None (length bl - 1) ++ Some (k, e) :: more)) in
  concat (d_out d) <> payload /\ exists s', r = SvOk (z2b 36) (zlen payload) s' /\ bytes_left s' = rest.
Proof.
  intros Hn Hb Hk E. pose proof (C189_exact_partial payload bl rest cs (repeat None (length bl - 1) ++ Some (k, e) :: more) Hn Hb E) as H.
  destruct (w_save _ _) as [d r]. destruct Hb as (Hc & _ & _).
  assert (G : forall bl, (k < length (List.last bl []))%nat -> (length (concat (fst (on_the_wire (repeat None (length bl - 1) ++ Some (k, e) :: more) bl))) < length (concat bl))%nat /\
    failed (snd (on_the_wire (repeat None (length bl - 1) ++ Some (k, e) :: more) (removelast bl))) = None).
  { clear. induction bl as [|x [|y bl] IH]; intros Hk; [cbn in Hk; lia| |].
    - cbn in *. rewrite !app_nil_r, take_length. split; [lia|reflexivity].
    - destruct (IH Hk) as [A B]. change (removelast (x :: y :: bl)) with (x :: removelast (y :: bl)). replace (length (x :: y :: bl) - 1)%nat with (S (length (y :: bl) - 1)) by (cbn; lia).
      cbn [repeat app].
      change (on_the_wire (None :: repeat None (length (y :: bl) - 1) ++ Some (k, e) :: more) (x :: y :: bl)) with (let '(o, es) := on_the_wire (repeat None (length (y :: bl) - 1) ++ Some (k, e) :: more) (y :: bl) in (x :: o, None :: es)).
      change (on_the_wire (None :: repeat None (length (y :: bl) - 1) ++ Some (k, e) :: more) (x :: removelast (y :: bl))) with (let '(o, es) := on_the_wire (repeat None (length (y :: bl) - 1) ++ Some (k, e) :: more) (removelast (y :: bl)) in (x :: o, None :: es)).
      destruct (on_the_wire _ (y :: bl)) as [o1 e1]. destruct (on_the_wire _ (removelast (y :: bl))) as [o2 e2]. cbn [fst snd] in *. rewrite failed_cons. split; [|exact B].
      change (concat (x :: o1)) with (x ++ concat o1). change (concat (x :: y :: bl)) with (x ++ concat (y :: bl)). rewrite !app_length. lia. }
  destruct (G bl Hk) as [A B]. rewrite B in H. destruct H as [-> H]. split; [|exact H]. intros X. rewrite X, Hc in A. lia.
Qed.
(** For a snapshot of at most 4096 bytes no failure at all is reported. *)
Theorem C189_small_refuted payload rest cs plan : zlen payload <= 4096 ->
  concat cs = bs "$" ++ itoa (zlen payload) ++ crlf ++ payload ++ rest ->
  exists s', snd (w_save (new_rd cs) (Dev [] plan)) = SvOk (z2b 36) (zlen payload) s' /\ bytes_left s' = rest.
Proof.
  intros Hl E. assert (Hn : int64 (zlen payload)) by (unfold int64, zlen in *; lia).
  assert (Hb : exists bl, is_blocks payload bl /\ removelast bl = []).
  { destruct payload as [|c p]; [exists []; split; [split; [reflexivity|split; constructor]|reflexivity]|]. exists [c :: p]. split; [|reflexivity].
    split; [cbn; rewrite app_nil_r; reflexivity|]. split; [constructor|]. constructor; [|constructor]. split; [discriminate|]. unfold zlen in Hl. Transparent bufsize. unfold bufsize. Opaque bufsize. lia. }
  destruct Hb as (bl & Hb & Hr). pose proof (C189_exact_partial payload bl rest cs plan Hn Hb E) as H. destruct (w_save (new_rd cs) (Dev [] plan)) as [d r]. rewrite Hr in H. cbn in H. apply H.
Qed.
Example C189_nonvacuous : match w_save (new_rd [bs "$5" ++ crlf ++ bs "hello"]) (Dev [] [Some (2%nat, bs "no space left on device")]) with
  | (d, SvOk _ n _) => (d_out d, n) = ([bs "he"], 5) | _ => False end.
Proof. vm_compute. reflexivity. Qed.
(** Without failures: whatever is written, and however, the bytes that reached the transport and those in the buffer are what was written,
    and the file of w_save is that of [read_with_writer] in RespModel.v, for every stream. *)
Definition written (b : bw) : gostr := concat (d_out (b_dev b)) ++ b_buf b.
Definition sound (b : bw) : Prop := b_err b = None /\ d_plan (b_dev b) = [].
Lemma flush_sound b : sound b -> sound (bw_flush b) /\ b_buf (bw_flush b) = [] /\ concat (d_out (b_dev (bw_flush b))) = written b.
Proof.
  destruct b as [buf e [o pl]]. intros [He Hp]. cbn in He, Hp. subst. unfold bw_flush, written, sound. cbn. destruct buf as [|c buf]; cbn.
  - rewrite app_nil_r. auto.
  - rewrite concat_app. cbn. rewrite app_nil_r. auto.
Qed.
Lemma write_sound p b : sound b -> sound (bw_write p b) /\ written (bw_write p b) = written b ++ p.
Proof.
  intros S. pose proof S as [He Hp]. unfold bw_write. rewrite He. destruct (Nat.leb _ (available b)).
  - split; [split; [reflexivity|exact Hp]|]. unfold written. cbn. rewrite app_assoc. reflexivity.
  - assert (D : forall q b0, sound b0 -> b_buf b0 = [] -> sound (bw_direct q b0) /\ written (bw_direct q b0) = written b0 ++ q).
    { intros q b0 [_ Hq] Hb. unfold bw_direct, dev_write. rewrite Hq. split; [split; reflexivity|]. unfold written. cbn. rewrite Hb, concat_app. cbn. rewrite !app_nil_r. reflexivity. }
    destruct (b_buf b) as [|c buf] eqn:Eb; [apply D; assumption|]. cbn zeta.
    destruct (flush_sound (Bw ((c :: buf) ++ take (available b) p) None (b_dev b)) (conj eq_refl Hp)) as (S1 & E1 & E2).
    set (b1 := bw_flush _) in *. pose proof S1 as [F1 F2]. rewrite F1.
    assert (W : forall x, written b1 = x -> x ++ drop (available b) p = written b ++ p).
    { intros x <-. unfold written at 1. rewrite E1, app_nil_r, E2. unfold written. cbn [b_buf b_dev]. rewrite Eb, <- !app_assoc, take_drop. reflexivity. }
    destruct (Nat.leb _ bufsize).
    + split; [split; [reflexivity|exact F2]|]. unfold written at 1. cbn [b_buf b_dev]. rewrite <- (W _ eq_refl). unfold written at 1. rewrite E1, app_nil_r. reflexivity.
    + destruct (D (drop (available b) p) b1 S1 E1) as [A B]. split; [exact A|]. rewrite B. apply W. reflexivity.
Qed.
Lemma byte_sound c b : sound b -> sound (bw_byte c b) /\ written (bw_byte c b) = written b ++ [c].
Proof.
  intros S. pose proof S as [He Hp]. unfold bw_byte. rewrite He. cbn zeta.
  assert (X : exists b1, (if Nat.eqb (available b) 0 then bw_flush b else b) = b1 /\ sound b1 /\ written b1 = written b).
  { destruct (Nat.eqb _ 0); [|exists b; auto]. destruct (flush_sound b S) as (A & B & C). eexists. split; [reflexivity|]. split; [exact A|]. unfold written at 1. rewrite B, app_nil_r. exact C. }
  destruct X as (b1 & -> & [A1 A2] & B). rewrite A1. split; [split; [reflexivity|exact A2]|]. rewrite <- B. unfold written. cbn. rewrite app_assoc. reflexivity.
Qed.
Lemma copy_sound n : forall b s acc, sound b -> written b = acc -> let '(b1, r) := w_copy n b s in let '(out, r0) := copy_bytes n acc s in
  sound b1 /\ written b1 = out /\ r = match r0 with ROk _ s' => SvOk x00 0 s' | RErr e _ => SvRead e | _ => SvCrash end.
Proof.
  induction n as [|n IH]; intros b s acc S W; cbn [w_copy copy_bytes]; [auto|]. destruct (read_byte s) as [c s'|e s'| |]; auto.
  destruct (byte_sound c b S) as [S1 W1]. cbn zeta. rewrite (proj1 S1). apply IH; [exact S1|]. rewrite W1, W. reflexivity.
Qed.
Theorem C189_without_failures s : let '(d, r) := w_save s (Dev [] []) in let '(out, r0) := read_with_writer s in
  concat (d_out d) = out /\ r = match r0 with ROk (p, n) s' => SvOk p n s' | RErr e _ => SvRead e | _ => SvCrash end.
Proof.
  unfold w_save, read_with_writer. destruct (read_byte s) as [p s1|e s1| |]; auto. cbn zeta.
  assert (N : sound (new_bw (Dev [] []))) by (split; reflexivity).
  assert (F : forall b1 (r : saved) out, sound b1 -> written b1 = out -> concat (d_out (b_dev (bw_flush b1))) = out) by (intros b1 r out S <-; apply flush_sound, S).
  destruct (Byte.eqb p (z2b 36)).
  - destruct (read_num s1) as [n s2|e s2| |]; auto. pose proof (copy_sound (Z.to_nat n) _ s2 [] N eq_refl) as H. destruct (w_copy _ _ s2) as [b1 r]. destruct (copy_bytes _ [] s2) as [out r0].
    destruct H as (S & W & ->). destruct r0 as [u s3|e s3| |]; split; auto using (F b1 SvCrash).
  - destruct (Byte.eqb p (z2b 43) || Byte.eqb p (z2b 45) || Byte.eqb p (z2b 58)).
    + destruct (read_line s1) as [l s2|e s2| |]; auto. destruct (write_sound l _ N) as [S W]. cbn zeta. rewrite (proj1 S). split; [|reflexivity]. apply (F _ SvCrash _ S W).
    + destruct (Byte.eqb p (z2b 42)); [destruct (read_num s1) as [n s2|e s2| |]; auto|]. auto.
Qed.
(** readBulkString, which nothing calls, would do for readMessage's own reading of a bulk string, but for errors, which it drops *)
Lemma bulk_string_same n s x s' : 0 < n -> read_bulk n s = ROk (MBulk x) s' -> read_bulk_string n s = Some (x, s').
Proof.
  intros Hn. unfold read_bulk, read_bulk_string, rbind. replace (0 <? n) with true by (symmetry; apply Z.ltb_lt; lia). destruct (make_ok n); [|discriminate].
  destruct (read_some _ s) as [d s1|e s1| |]; [|discriminate..]. destruct (read_line s1) as [l s2|e s2| |]; [|discriminate..]. intros E. injection E as <- <-. reflexivity.
Qed.
Lemma bulk_string_none n s : n <= 0 -> read_bulk_string n s = Some ([], s).
Proof. intros H. unfold read_bulk_string. replace (0 <? n) with false by (symmetry; apply Z.ltb_ge; lia). reflexivity. Qed.
Lemma bulk_string_drops : read_bulk_string 3 (new_rd []) = Some ([x00; x00; x00], new_rd []).
Proof. reflexivity. Qed.
