(** * Props_Recover: which calls panic, and what a recovered panic leaves behind *)
From stdpp Require Import relations.
From Verif Require Import Base GoFloat CacheModel CacheSpec CacheConc RecoverModel.
From Verif Require Import CacheAbs CacheRefine CacheRefineH CacheMain CacheLib ConcLin ConcSafe Props_String Props_Db Props_Hash Props_Exact Props_Conc.

(** ** C192: the calls that panic, in every state *)
(** HKeys, HVals and HGetAll on a key that holds nothing; SetRange on such a key with a position that no Go
    program can allocate *)
Definition panics (t : Z) (w : world) (c : call) : Prop :=
  match c with
  | CHKeys k | CHVals k | CHGetAll k => readable t w k = false
  | CSetRange k pos _ => 2 ^ 48 < pos /\ readable t w k = false
  | _ => False
  end.
Lemma abs_None c t w : ready w -> (abs c t (view w) = None <-> panics t w c).
Proof.
  intros Hr. destruct (single_cases c) as [[k Hk]|Hc].
  - rewrite (abs_single c k t _ Hk).
    assert (H : abs1 c t (view w k) = None <-> panics t w c).
    { destruct c; cbn [single keys_of] in Hk; try discriminate; injection Hk as ->; cbn [abs1 panics]; unfold wr;
        try (split; [discriminate|intros []]; fail); try rewrite (readable_view t w k Hr).
      - destruct (Z.ltb_spec pos 0) as [Hp|Hp]; [split; [discriminate|intros [H _]; exfalso; lia]|].
        destruct (fst (purge t (view w k))) as [x|]; [split; [discriminate|intros [_ H]; discriminate]|].
        unfold max_alloc. destruct (Z.gtb_spec pos (2 ^ 48)) as [H1|H1]; split; try discriminate; auto; intros [H2 _]; exfalso; lia.
      - destruct (fst (purge t (view w k))) as [[x|o]|]; split; discriminate || auto.
      - destruct (fst (purge t (view w k))) as [[x|o]|]; split; discriminate || auto.
      - destruct (fst (purge t (view w k))) as [[x|o]|]; split; discriminate || auto. }
    rewrite <- H. destruct (abs1 c t (view w k)) as [[x r]|]; split; discriminate || auto.
  - destruct c; try destruct Hc; cbn [abs panics]; try (split; [discriminate|intros []]; fail).
    + destruct (a_msetnx kv 0 (view w)). split; [discriminate|intros []].
    + destruct (a_mget t ks (view w)). split; [discriminate|intros []].
Qed.
Theorem C192_panics_exact w t c : ready w -> (run_call t c w = EPanic <-> panics t w c).
Proof.
  intros Hr. rewrite <- (abs_None c t w Hr). pose proof (refine c t w Hr) as H. destruct (abs c t (view w)) as [[V r]|].
  - destruct H as (w' & -> & _). split; discriminate.
  - rewrite H. split; reflexivity.
Qed.
(** every other call of one caller returns *)
Theorem C192_returns w t c : ready w -> ~ panics t w c -> exists w' r, run_call t c w = Done w' r /\ ready w'.
Proof.
  intros Hr Hp. pose proof (refine c t w Hr) as H. rewrite <- (abs_None c t w Hr) in Hp. destruct (abs c t (view w)) as [[V r]|]; [|destruct Hp; reflexivity].
  destruct H as (w' & E & Hr' & _). eauto.
Qed.
Example C192_panic_ex : exists k, run_call 1 (CHKeys k) (new_world 0) = EPanic.
Proof. exists (bs "k"). vm_compute. reflexivity. Qed.
Example C192_ex : panics 5 (new_world 0) (CHKeys (bs "k")) /\ ~ panics 9 demo (CHKeys (bs "h")) /\ panics 5 (new_world 0) (CSetRange (bs "k") (2 ^ 48 + 1) (bs "x")) /\ ~ panics 5 (new_world 0) (CSetRange (bs "k") (2 ^ 48) (bs "x")).
Proof. split; [vm_compute; reflexivity|]. split; [vm_compute; discriminate|]. split; [split; [reflexivity|vm_compute; reflexivity]|]. intros [H _]. discriminate H. Qed.

(** ** C193: a recovered panic has the effect of a Get, for one caller *)
Lemma evalp_eval {R} (p : prog R) : forall w, match evalp p w with PDone w' r => eval p w = Done w' r | PBlocked => eval p w = EBlocked | PPanic _ => eval p w = EPanic end.
Proof. induction p as [r|f IH] using prog_ind'; intros w; cbn; [reflexivity|]. destruct (f w) as [w' p'| |] eqn:E; [exact (IH _ _ _ E w')|reflexivity|reflexivity]. Qed.
Lemma evalp_bind {A B} (p : prog A) (k : A -> prog B) : forall w, evalp (pbind p k) w = match evalp p w with PDone w' r => evalp (k r) w' | PBlocked => PBlocked | PPanic w' => PPanic w' end.
Proof. induction p as [r|f IH] using prog_ind'; intros w; cbn; [reflexivity|]. destruct (f w) as [w' p'| |] eqn:E; eauto. Qed.
Lemma evalp_done {R} (p : prog R) w w' r : eval p w = Done w' r -> evalp p w = PDone w' r.
Proof. pose proof (evalp_eval p w) as H. destruct (evalp p w); congruence. Qed.

(** [k] is read: what any panicking call has done before *)
Lemma get_ran w t k : ready w -> readable t w k = false -> exists D E H N, 
  set_now w t = W (Some D) (Some E) H N false 0 t /\
  let D' := (if dead D E t k then delete k D else D) in let E' := (if dead D E t k then delete k E else E) in
  forall b m, eval (c_get k) (W (Some D) (Some E) H N b m t) = Done (W (Some D') (Some E') H N b m t) None.
Proof.
  intros Hr Hn. destruct w as [d e H N wr rd now]. destruct Hr as [R1 R2 (D & Ed & R3 & R4) [E Ee] R6 R7]. cbn [w_data w_exp w_heap w_next w_writer w_readers] in R1, R2, Ed, Ee. subst.
  exists D, E, H, N. split; [reflexivity|]. cbn zeta. intros b m. rewrite ev_c_get. 
  unfold readable, answer, run_call in Hn. cbn [call_prog] in Hn. unfold pmap, m_get, rlocked in Hn. cbn [set_now w_data w_exp w_heap w_next w_writer w_readers] in Hn. 
  unfold set_now in Hn. cbn [w_data w_exp w_heap w_next w_writer w_readers] in Hn.
  revert Hn. crew. destruct (dead D E t k); [reflexivity|]. crew.
  destruct (D !! k) as [x|] eqn:Ex; [|reflexivity]. unfold fmt_ret. destruct (fmt_string x); discriminate.
Qed.
Lemma panics_cases t w c : panics t w c -> exists k, single c = Some k /\ readable t w k = false /\
  (c = CHKeys k \/ c = CHVals k \/ c = CHGetAll k \/ exists pos r, 2 ^ 48 < pos /\ c = CSetRange k pos r).
Proof. destruct c; cbn [panics]; intros H; try (destruct H; fail); eexists; (split; [reflexivity|]); [destruct H as [H1 H2]|..]; split; eauto 9. Qed.
Theorem C193_recovered_exact w t c : ready w -> panics t w c ->
  exists k w' s e, single c = Some k /\ rec_call t c w = Some (w', None) /\ run_call t (CGet k) w = Done w' (RStr (s, e)) /\ ready w'.
Proof.
  intros Hr Hp.
  destruct (panics_cases t w c Hp) as (k & Hk & Hn & Hc). destruct (get_ran w t k Hr Hn) as (D & E & H & N & Ew & Hg). cbn zeta in Hg.
  set (D' := if dead D E t k then delete k D else D) in *. set (E' := if dead D E t k then delete k E else E) in *.
  assert (Eg : run_call t (CGet k) w = Done (W (Some D') (Some E') H N false 0 t) (RStr ([], Some ErrKeyNil))).
  { unfold run_call. rewrite Ew. cbn [call_prog]. unfold pmap, m_get, rlocked. do 2 (rewrite eval_bind). rewrite ev_rlock. cbn beta iota. do 2 (rewrite eval_bind). rewrite Hg. crew. reflexivity. }
  exists k, (W (Some D') (Some E') H N false 0 t), [], (Some ErrKeyNil). split; [exact Hk|]. split; [|split; [exact Eg|exact (ready_run _ _ _ _ _ Hr Eg)]].
  unfold rec_call. rewrite Ew.
  destruct Hc as [->|[->|[->|(pos & r & Hpos & ->)]]]; cbn [call_prog]; unfold pmap.
  - unfold m_hkeys, get_hash_entry. rewrite !evalp_bind. rewrite (evalp_done _ _ _ _ (Hg false 0%nat)). reflexivity.
  - unfold m_hvals, get_hash_entry. rewrite !evalp_bind. rewrite (evalp_done _ _ _ _ (Hg false 0%nat)). reflexivity.
  - unfold m_hgetall, get_hash_entry. rewrite !evalp_bind. rewrite (evalp_done _ _ _ _ (Hg false 0%nat)). reflexivity.
  - unfold m_setrange, locked. rewrite !evalp_bind. rewrite (evalp_done _ _ _ _ (ev_lock _ _ _ _ _)).
    rewrite evalp_bind. replace (pos <? 0) with false by lia. cbn zeta. rewrite evalp_bind.
    rewrite (evalp_done (load_live k) _ _ _ (Hg true 0%nat)). replace (pos >? max_alloc) with true by (unfold max_alloc; lia). reflexivity.
Qed.

(** A whole history in which panics are recovered: it is the history in which every call that panicked is a Get of
    its key. In particular it never gets stuck. *)
Inductive recovers : list (Z * call) -> list (option reply) -> list (Z * call) -> list reply -> Prop :=
| rv_nil : recovers [] [] [] []
| rv_done t c r h rs h' rs' : recovers h rs h' rs' -> recovers ((t, c) :: h) (Some r :: rs) ((t, c) :: h') (r :: rs')
| rv_panic t c k e h rs h' rs' : single c = Some k -> recovers h rs h' rs' ->
    recovers ((t, c) :: h) (None :: rs) ((t, CGet k) :: h') (RStr e :: rs').
Theorem C193_history w h : ready w -> exists w' rs h' rs',
  rec_hist h w = Some (w', rs) /\ run_hist h' w = Done w' rs' /\ ready w' /\ recovers h rs h' rs'.
Proof.
  revert w. induction h as [|[t c] h IH]; intros w Hr; [exists w, [], [], []; (split; [reflexivity|split; [reflexivity|split; [exact Hr|constructor]]])|]. cbn [rec_hist].
  assert (Hc : panics t w c \/ ~ panics t w c) by (rewrite <- (abs_None c t w Hr); destruct (abs c t (view w)); auto).
  destruct Hc as [Hc|Hc].
  - destruct (C193_recovered_exact w t c Hr Hc) as (k & w1 & s & e & Hk & -> & E & Hr1). destruct (IH w1 Hr1) as (w' & rs & h' & rs' & -> & E' & Hr' & Hv).
    exists w', (None :: rs), ((t, CGet k) :: h'), (RStr (s, e) :: rs'). cbn [run_hist]. rewrite E, E'. split; [reflexivity|]. split; [reflexivity|]. split; [exact Hr'|]. constructor; auto.
  - destruct (C192_returns w t c Hr Hc) as (w1 & r & E & Hr1). destruct (IH w1 Hr1) as (w' & rs & h' & rs' & H1 & E' & Hr' & Hv).
    exists w', (Some r :: rs), ((t, c) :: h'), (r :: rs'). cbn [run_hist]. rewrite E, E'. unfold rec_call. rewrite (evalp_done _ _ _ _ E), H1. split; [reflexivity|]. split; [reflexivity|]. split; [exact Hr'|]. constructor; auto.
Qed.
Example C193_ex : match rec_hist [(1, CPSetEX (bs "k") (bs "v") 1); (2, CGet (bs "k")); (5000000, CHKeys (bs "k")); (5000001, CSet (bs "k") (bs "w")); (5000002, CGet (bs "k"))] (new_world 0) with
  | Some (_, rs) => rs = [Some (RStr (bs "OK", None)); Some (RStr (bs "v", None)); None; Some (RStr (bs "OK", None)); Some (RStr (bs "w", None))]
  | None => False end.
Proof. vm_compute. reflexivity. Qed.
(** SetRange panics while it holds the lock; afterwards the lock is free *)
Example C193_setrange_ex : exists w', rec_call 5 (CSetRange (bs "k") (2 ^ 48 + 1) (bs "x")) (new_world 0) = Some (w', None) /\ ready w'.
Proof. destruct (C193_recovered_exact (new_world 0) 5 _ (ready_new 0) (proj1 (proj2 (proj2 C192_ex)))) as (k & w' & s & e & _ & H & _ & Hr). eauto. Qed.

(** ** C194: goroutines that recover never leave the lock behind *)
Definition rat (cl : call) (x : pc) (p : prog reply) : Prop :=
  match x with
  | Out => (exists r, p = Ret r) \/ (deferred cl = DNone /\ nl p) \/
           ((deferred cl = DUnlock \/ cl = CCron) /\ exists (A : Type) (b : prog A) g, p = pmap g (locked b) /\ nl b) \/
           (deferred cl = DRUnlock /\ exists (A : Type) (b : prog A) g, p = pmap g (rlocked b) /\ nl b)
  | InW => (deferred cl = DUnlock \/ cl = CCron) /\ exists (A : Type) (b : prog A) g, p = fin b g /\ nl b
  | InR => deferred cl = DRUnlock /\ exists (A : Type) (b : prog A) g, p = finr b g /\ nl b
  end.
Lemma rat_call cl : rat cl Out (call_prog cl).
Proof.
  destruct cl; right;
    first [ right; left; (split; [auto; fail|]); eexists _, _, _; (split; [reflexivity|]); unf; solve [nlgo]
          | right; right; (split; [reflexivity|]); eexists _, _, _; (split; [reflexivity|]); unf; solve [nlgo]
          | left; split; [reflexivity|]; cbn [call_prog]; unfold pmap; unf; solve [nlgo] ].
Qed.
Record rinv (c : conf) (M : gmap nat call) (h : option nat) (R : gset nat) : Prop := Rinv {
  ri_w : w_writer (c_w c) = match h with Some _ => true | None => false end;
  ri_r : w_readers (c_w c) = size R;
  ri_ex : is_Some h -> R = ∅;
  ri_th : forall i, match c_th c !! i, M !! i with
                    | Some p, Some cl => rat cl (place h R i) p
                    | None, None => place h R i = Out
                    | _, _ => False
                    end }.
Lemma place_rm (R : gset nat) i j : j <> i -> place None (R ∖ {[i]}) j = place None R j.
Proof. intros Hne. unfold place. rewrite !decide_False by congruence. destruct (decide (j ∈ R)); [rewrite decide_True by set_solver|rewrite decide_False by set_solver]; reflexivity. Qed.
Lemma place_add (R : gset nat) i j : j <> i -> place None ({[i]} ∪ R) j = place None R j.
Proof. intros Hne. unfold place. rewrite !decide_False by congruence. destruct (decide (j ∈ R)); [rewrite decide_True by set_solver|rewrite decide_False by set_solver]; reflexivity. Qed.
Lemma place_rm_i (R : gset nat) i : place None (R ∖ {[i]}) i = Out.
Proof. unfold place. rewrite !decide_False by (congruence || set_solver). reflexivity. Qed.
Lemma size_rm (R : gset nat) i : i ∈ R -> size R = S (size (R ∖ {[i]})).
Proof. intros Hi. rewrite (union_difference_L {[i]} R) at 1 by set_solver. rewrite size_union by set_solver. rewrite size_singleton. reflexivity. Qed.

Lemma rinv_run c M h R i f w' p' : rinv c M h R -> c_th c !! i = Some (Step f) -> f (c_w c) = Go w' p' -> exists h' R', rinv (Conf w' (<[i := p']> (c_th c))) M h' R'.
Proof.
  intros [Hw Hr Hex Hth] Ei Ef. pose proof (Hth i) as Hi. rewrite Ei in Hi. destruct (M !! i) as [cl|] eqn:Em; [|destruct Hi].
  assert (Hput : forall h' R', (forall j, j <> i -> place h' R' j = place h R j) -> rat cl (place h' R' i) p' ->
            forall j, match (<[i := p']> (c_th c)) !! j, M !! j with Some p, Some cl => rat cl (place h' R' j) p | None, None => place h' R' j = Out | _, _ => False end).
  { intros h' R' Hpl Hp j. destruct (decide (j = i)) as [->|Hne]; [rewrite lookup_insert, Em; exact Hp|]. rewrite lookup_insert_ne, Hpl by auto. apply Hth. }
  assert (Hbody : w_writer w' = w_writer (c_w c) /\ w_readers w' = w_readers (c_w c) -> rat cl (place h R i) p' -> exists h' R', rinv (Conf w' (<[i := p']> (c_th c))) M h' R').
  { intros [H1 H2] Hp. exists h, R. constructor; cbn [c_w c_th]; [congruence|congruence|exact Hex|apply Hput; auto]. }
  destruct (place h R i) eqn:Epl; cbn [rat] in Hi.
  - destruct Hi as [[r ?]|[[Hd Hb]|[(Hd & A & b & g & Ec & Hb)|(Hd & A & b & g & Ec & Hb)]]]; [discriminate| | |].
    + inversion Hb as [|f' N1 N2 N3]; subst. apply Hbody; [apply (N2 _ _ _ Ef)|]. right; left. eauto.
    + cbn in Ec. injection Ec as ->. rewrite Hw, Hr in Ef. destruct h as [h|]; cbn in Ef; [discriminate|].
      destruct (Nat.eqb_spec (size R) 0) as [Hs|]; cbn in Ef; [|discriminate]. injection Ef as <- <-.
      assert (HR : R = ∅) by (apply leibniz_equiv, size_empty_iff, Hs). subst R.
      exists (Some i), ∅. constructor; cbn [c_w c_th w_writer w_readers set_lock]; auto. apply Hput; [intros j Hj; apply place_other, Hj|].
      unfold place. rewrite decide_True by auto. split; [exact Hd|]. exists A, b, g. split; [reflexivity|exact Hb].
    + cbn in Ec. injection Ec as ->. rewrite Hw in Ef. destruct h as [h|]; cbn in Ef; [discriminate|]. injection Ef as <- <-.
      apply place_O in Epl as [_ HiR]. exists None, ({[i]} ∪ R). constructor; cbn [c_w c_th w_writer w_readers set_lock]; auto.
      * rewrite size_union by set_solver. rewrite size_singleton, Hr. reflexivity.
      * intros [? ?]. discriminate.
      * apply Hput; [intros j Hj; apply place_add, Hj|]. unfold place. rewrite decide_False, decide_True by (congruence || set_solver). split; [exact Hd|]. exists A, b, g. split; [reflexivity|exact Hb].
  - apply place_W in Epl. subst h. destruct Hi as (Hd & A & b & g & Ec & Hb). destruct b as [r|fb]; cbn in Ec; injection Ec as ->.
    + rewrite Hw in Ef. injection Ef as <- <-. specialize (Hex (ex_intro _ _ eq_refl)). subst R.
      exists None, ∅. constructor; cbn [c_w c_th w_writer w_readers set_lock]; auto. apply Hput; [intros j Hj; symmetry; apply place_other, Hj|]. left. eauto.
    + destruct (fb (c_w c)) as [w1 b1| |] eqn:Efb; cbn in Ef; try discriminate. injection Ef as -> <-. inversion Hb as [|f' N1 N2 N3]; subst.
      apply Hbody; [apply (N2 _ _ _ Efb)|]. split; [exact Hd|]. exists A, b1, g. split; [reflexivity|eauto].
  - apply place_R in Epl as [Hh HiR]. destruct Hi as (Hd & A & b & g & Ec & Hb). destruct b as [r|fb]; cbn in Ec; injection Ec as ->.
    + rewrite Hr, (size_rm R i HiR) in Ef. cbn in Ef. injection Ef as <- <-.
      assert (Hn : h = None). { destruct h; [|reflexivity]. rewrite Hex in HiR by eauto. set_solver. } subst h.
      exists None, (R ∖ {[i]}). constructor; cbn [c_w c_th w_writer w_readers set_lock]; auto.
      * intros [? ?]. discriminate.
      * apply Hput; [intros j Hj; apply place_rm, Hj|]. rewrite place_rm_i. left. eauto.
    + destruct (fb (c_w c)) as [w1 b1| |] eqn:Efb; cbn in Ef; try discriminate. injection Ef as -> <-. inversion Hb as [|f' N1 N2 N3]; subst.
      apply Hbody; [apply (N2 _ _ _ Efb)|]. split; [exact Hd|]. exists A, b1, g. split; [reflexivity|eauto].
Qed.
(** the deferred unlock is always of a lock the goroutine holds *)
Lemma rinv_unwind c M h R i f cl : rinv c M h R -> c_th c !! i = Some (Step f) -> M !! i = Some cl -> f (c_w c) = Panic -> cl <> CCron ->
  exists w' h' R', unwind cl (c_w c) = Some w' /\ rinv (Conf w' (delete i (c_th c))) (delete i M) h' R'.
Proof.
  intros [Hw Hr Hex Hth] Ei Em Ef Hn. pose proof (Hth i) as Hi. rewrite Ei, Em in Hi.
  assert (Hdel : forall h' R', (forall j, j <> i -> place h' R' j = place h R j) -> place h' R' i = Out ->
            forall j, match delete i (c_th c) !! j, delete i M !! j with Some p, Some cl => rat cl (place h' R' j) p | None, None => place h' R' j = Out | _, _ => False end).
  { intros h' R' Hpl Hp j. destruct (decide (j = i)) as [->|Hne]; [rewrite !lookup_delete; exact Hp|]. rewrite !lookup_delete_ne, Hpl by auto. apply Hth. }
  assert (Hu : unwind cl (c_w c) = match deferred cl with
         | DNone => Some (c_w c)
         | DUnlock => if w_writer (c_w c) then Some (set_lock (c_w c) false (w_readers (c_w c))) else None
         | DRUnlock => match w_readers (c_w c) with O => None | S n => Some (set_lock (c_w c) (w_writer (c_w c)) n) end end).
  { destruct cl; try congruence; cbn; try reflexivity; try (destruct (w_writer (c_w c)); reflexivity); destruct (w_readers (c_w c)); reflexivity. }
  destruct (place h R i) eqn:Epl; cbn [rat] in Hi.
  - destruct Hi as [[r ?]|[[Hd Hb]|[(Hd & A & b & g & Ec & Hb)|(Hd & A & b & g & Ec & Hb)]]]; [discriminate| | |].
    + exists (c_w c), h, R. rewrite Hu, Hd. split; [reflexivity|]. constructor; auto. cbn [c_th]. apply Hdel; auto.
    + cbn in Ec. injection Ec as ->. destruct (w_writer (c_w c) || negb (Nat.eqb (w_readers (c_w c)) 0)); discriminate.
    + cbn in Ec. injection Ec as ->. destruct (w_writer (c_w c)); discriminate.
  - apply place_W in Epl. subst h. destruct Hi as ([Hd|Hd] & _); [|congruence]. rewrite Hu, Hd, Hw. specialize (Hex (ex_intro _ _ eq_refl)). subst R.
    eexists _, None, ∅. split; [reflexivity|]. constructor; cbn [c_w c_th w_writer w_readers set_lock]; auto. apply Hdel; [intros j Hj; symmetry; apply place_other, Hj|reflexivity].
  - apply place_R in Epl as [Hh HiR]. destruct Hi as (Hd & _). rewrite Hu, Hd, Hr, (size_rm R i HiR).
    assert (Hn' : h = None). { destruct h; [|reflexivity]. rewrite Hex in HiR by eauto. set_solver. } subst h.
    eexists _, None, (R ∖ {[i]}). split; [reflexivity|]. constructor; cbn [c_w c_th w_writer w_readers set_lock]; auto.
    + intros [? ?]. discriminate.
    + apply Hdel; [intros j Hj; apply place_rm, Hj|apply place_rm_i].
Qed.
Lemma rinv_step c h R a c' e : rinv (r_c c) (r_calls c) h R -> rstep a c = Some (c', e) -> exists h' R', rinv (r_c c') (r_calls c') h' R'.
Proof.
  intros Hi E. destruct a as [[i cl|i|i|t]|i]; cbn in E.
  - destruct (c_th (r_c c) !! i) eqn:Ei; [discriminate|]. injection E as <- <-. cbn [r_c r_calls]. destruct Hi as [Hw Hr Hex Hth]. exists h, R. constructor; auto; cbn [c_w c_th].
    intros j. destruct (decide (j = i)) as [->|Hne]; [|rewrite !lookup_insert_ne by auto; apply Hth]. rewrite !lookup_insert. specialize (Hth i). rewrite Ei in Hth.
    destruct (r_calls c !! i); [destruct Hth|]. rewrite Hth. apply rat_call.
  - destruct (c_th (r_c c) !! i) as [[r|f]|] eqn:Ei; try discriminate. destruct (f (c_w (r_c c))) as [w' p'| |] eqn:Ef; try discriminate. injection E as <- <-. cbn [r_c r_calls]. eapply rinv_run; eauto.
  - destruct (c_th (r_c c) !! i) as [[r|f]|] eqn:Ei; try discriminate. injection E as <- <-. cbn [r_c r_calls]. destruct Hi as [Hw Hr Hex Hth]. exists h, R. constructor; auto; cbn [c_w c_th].
    intros j. destruct (decide (j = i)) as [->|Hne]; [|rewrite !lookup_delete_ne by auto; apply Hth]. rewrite !lookup_delete. specialize (Hth i). rewrite Ei in Hth.
    destruct (r_calls c !! i) as [cl|]; [|destruct Hth]. destruct (place h R i); [reflexivity| |]; destruct Hth as (_ & A & b & g & Ec & _); destruct b; discriminate Ec.
  - destruct (w_now (c_w (r_c c)) <=? t); [|discriminate]. injection E as <- <-. cbn [r_c r_calls]. destruct Hi as [Hw Hr Hex Hth]. exists h, R. constructor; auto.
  - destruct (c_th (r_c c) !! i) as [[r|f]|] eqn:Ei; try discriminate. destruct (r_calls c !! i) as [cl|] eqn:Em; try discriminate.
    destruct (f (c_w (r_c c))) as [w' p'| |] eqn:Ef; try discriminate. destruct (unwind cl (c_w (r_c c))) as [w'|] eqn:Eu; [|discriminate]. injection E as <- <-. cbn [r_c r_calls].
    destruct (rinv_unwind _ _ _ _ _ _ _ Hi Ei Em Ef) as (w2 & h' & R' & E2 & H2); [intros ->; discriminate Eu|]. rewrite Eu in E2. injection E2 as <-. eauto.
Qed.
Lemma rinv_exec w0 s c evs : ready w0 -> rexec s (rstart w0) = Some (c, evs) -> exists h R, rinv (r_c c) (r_calls c) h R.
Proof.
  intros Hr. assert (H0 : exists h R, rinv (r_c (rstart w0)) (r_calls (rstart w0)) h R).
  { exists None, ∅. destruct Hr as [R1 R2 _ _ _ _]. constructor; cbn; auto. intros i. rewrite !lookup_empty. reflexivity. }
  revert H0 evs. generalize (rstart w0). induction s as [|a s IH]; intros c0 H0 evs E; cbn in E; [injection E as <- <-; exact H0|].
  destruct (rstep a c0) as [[c1 e]|] eqn:E1; [|discriminate]. destruct (rexec s c1) as [[c2 es]|] eqn:E2; [|discriminate]. injection E as <- <-.
  destruct H0 as (h & R & H0). eapply IH; [|exact E2]. eapply rinv_step; eauto.
Qed.
Lemma nl_alone {R} (p : prog R) : nl p -> forall w, match eval p w with Done w' _ => w_writer w' = w_writer w /\ w_readers w' = w_readers w | EBlocked => False | EPanic => True end.
Proof.
  intros H. induction H as [r|f N1 N2 N3 IH]; intros w; cbn; [auto|]. destruct (f w) as [w' p'| |] eqn:E; [|destruct (N1 w E)|exact I].
  specialize (IH _ _ _ E w'). destruct (N2 _ _ _ E) as [H1 H2]. destruct (eval p' w'); auto. rewrite H1, H2 in IH. exact IH.
Qed.
Theorem C194_no_deadlock w0 s c evs : ready w0 -> rexec s (rstart w0) = Some (c, evs) ->
  (* some goroutine that is in a call can go on *)
  (c_th (r_c c) <> ∅ -> exists i, enabled (r_c c) i) /\
  (* a panic in a call can always be recovered: the deferred function unlocks what the goroutine locked *)
  (forall i, crashing (r_c c) i -> r_calls c !! i <> Some CCron -> exists c', rstep (RRecover i) c = Some (c', [ERec i]) /\ c_th (r_c c') = delete i (c_th (r_c c))) /\
  (* when nobody is in a call the lock is free and no call waits *)
  (c_th (r_c c) = ∅ -> w_writer (c_w (r_c c)) = false /\ w_readers (c_w (r_c c)) = 0%nat /\ forall t cl, run_call t cl (c_w (r_c c)) <> EBlocked).
Proof.
  intros Hr0 E. destruct (rinv_exec _ _ _ _ Hr0 E) as (h & R & Hi). pose proof Hi as [Hw Hr Hex Hth]. split; [|split].
  - intros Hne. destruct h as [h|].
    + specialize (Hth h). exists h. unfold enabled. unfold place in Hth. rewrite decide_True in Hth by auto.
      destruct (c_th (r_c c) !! h) as [p|], (r_calls c !! h) as [cl|]; [|destruct Hth|destruct Hth|discriminate Hth].
      destruct Hth as (_ & A & b & g & -> & Hb). destruct Hb as [r|f N1 N2 N3]; cbn; [rewrite Hw; exact I|]. specialize (N1 (c_w (r_c c))). destruct (f (c_w (r_c c))); auto.
    + destruct (set_choose_or_empty R) as [[i HiR]|He].
      * specialize (Hth i). exists i. unfold enabled. unfold place in Hth. rewrite decide_False, decide_True in Hth by (congruence || auto).
        destruct (c_th (r_c c) !! i) as [p|], (r_calls c !! i) as [cl|]; [|destruct Hth|destruct Hth|discriminate Hth].
        destruct Hth as (_ & A & b & g & -> & Hb). destruct Hb as [r|f N1 N2 N3]; cbn; [destruct (w_readers (c_w (r_c c))); exact I|]. specialize (N1 (c_w (r_c c))). destruct (f (c_w (r_c c))); auto.
      * destruct (map_choose _ Hne) as (i & p & Ei). specialize (Hth i). rewrite Ei in Hth. destruct (r_calls c !! i) as [cl|]; [|destruct Hth]. exists i. unfold enabled. rewrite Ei.
        assert (HR : size R = 0%nat) by (apply size_empty_iff; exact He).
        destruct (place None R i) eqn:Ep; [|apply place_W in Ep; discriminate|apply place_R in Ep; set_solver].
        destruct Hth as [[r ->]|[[_ Hb]|[(_ & A & b & g & -> & Hb)|(_ & A & b & g & -> & Hb)]]]; [exact I| | |].
        -- destruct Hb as [r|f N1 N2 N3]; [exact I|]. specialize (N1 (c_w (r_c c))). destruct (f (c_w (r_c c))); auto.
        -- cbn. rewrite Hw, Hr, HR. exact I.
        -- cbn. rewrite Hw. exact I.
  - intros i Hc Hn. unfold crashing in Hc. destruct (c_th (r_c c) !! i) as [[r|f]|] eqn:Ei; [destruct Hc| |destruct Hc]. pose proof (Hth i) as Hti. rewrite Ei in Hti. destruct (r_calls c !! i) as [cl|] eqn:Em; [|destruct Hti].
    destruct (rinv_unwind _ _ _ _ _ _ _ Hi Ei Em Hc) as (w' & h' & R' & Eu & _); [congruence|]. cbn. rewrite Ei, Em, Hc, Eu. eexists. split; reflexivity.
  - intros He. assert (Hp : forall i, place h R i = Out). { intros i. specialize (Hth i). rewrite He, lookup_empty in Hth. destruct (r_calls c !! i); [destruct Hth|exact Hth]. }
    destruct h as [h|]; [specialize (Hp h); apply place_O in Hp; tauto|]. 
    assert (HR : w_readers (c_w (r_c c)) = 0%nat). { rewrite Hr. apply size_empty_iff. intros i. split; [|set_solver]. intros HiR. specialize (Hp i). apply place_O in Hp. tauto. }
    split; [exact Hw|]. split; [exact HR|]. intros t cl. unfold run_call. set (w := set_now (c_w (r_c c)) t).
    assert (W1 : w_writer w = false) by exact Hw. assert (W2 : w_readers w = 0%nat) by exact HR. clearbody w.
    destruct (call_nl cl) as [H|[(A & b & g & -> & H)|(A & b & g & -> & H)]].
    + pose proof (nl_alone _ H w) as G. intros Eb. rewrite Eb in G. exact G.
    + unfold pmap, locked. rewrite !eval_bind. cbn [eval p_lock atom]. rewrite W1, W2. cbn. rewrite eval_bind. pose proof (nl_alone _ H (set_lock w true 0)) as G.
      destruct (eval b (set_lock w true 0)) as [w' r| |]; [|destruct G|discriminate]. cbn. destruct G as [-> _]. discriminate.
    + unfold pmap, rlocked. rewrite !eval_bind. cbn [eval p_rlock atom]. rewrite W1, W2. cbn. rewrite eval_bind. pose proof (nl_alone _ H (set_lock w false 1)) as G.
      destruct (eval b (set_lock w false 1)) as [w' r| |]; [|destruct G|discriminate]. cbn. destruct G as [_ ->]. discriminate.
Qed.
(** HKeys of a hash that is deleted meanwhile panics and is recovered, as in C104; the others go on *)
Definition rec_demo : list ract := [RAct (AInv 1 (CHKeys (bs "h"))); RAct (AInv 2 (CDel (bs "h")))] ++ map RAct (runs 2 6) ++ [RAct (ARet 2)] ++ map RAct (runs 1 1) ++ [RRecover 1; RAct (AInv 1 (CIncr (bs "n")))] ++ map RAct (runs 1 4) ++ [RAct (ARet 1)].
Example C194_ex : match rexec rec_demo (rstart demo) with
  | Some (_, evs) => evs = [REv (EInv 1 (CHKeys (bs "h"))); REv (EInv 2 (CDel (bs "h"))); REv (ERet 2 (RInt (1, None))); ERec 1; REv (EInv 1 (CIncr (bs "n"))); REv (ERet 1 (RInt (42, None)))]
  | None => False end.
Proof. vm_compute. reflexivity. Qed.
