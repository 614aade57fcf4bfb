(** * ConcRead: without deadlines, writers and readers together are linearizable (proof machinery) *)
From stdpp Require Import relations.
From Verif Require Import Base GoFloat CacheModel CacheSpec CacheAbs CacheConc ConcLin ConcSafe.

Notation dict := (gmap gostr gval).
(** no deadline anywhere *)
Definition exp0 (w : world) (d : dict) : Prop := w_exp w = Some ∅ /\ w_data w = Some d.

(** the outcome is decided: nothing visible happens any more *)
Inductive sil {A} (a : A) : prog A -> Prop :=
| sil_ret : sil a (Ret a)
| sil_step f p : (forall w d, exp0 w d -> f w = Go w p) -> sil a p -> sil a (Step f).
(** the outcome is not decided; [D d] tells whether the next step decides it *)
Inductive cb {A} : prog A -> Prop :=
| cb_step f (D : dict -> bool) (F : dict -> dict) (P : dict -> prog A) :
    (forall w d, exp0 w d -> f w = Go (set_data w (F d)) (P d)) ->
    (forall d, D d = true -> exists a, sil a (P d)) ->
    (forall d, D d = false -> F d = d) ->
    (forall d, D d = false -> cb (P d)) -> cb (Step f).
(** the first step decides and changes nothing *)
Definition shot {A} (p : prog A) : Prop :=
  exists f (P : dict -> prog A), p = Step f /\ (forall w d, exp0 w d -> f w = Go w (P d)) /\ forall d, exists a, sil a (P d).

Lemma set_data_id w d : w_data w = Some d -> set_data w d = w.
Proof. destruct w. cbn. intros ->. reflexivity. Qed.
Lemma sil_eval {A} (a : A) p w d : sil a p -> exp0 w d -> eval p w = Done w a.
Proof. intros H He. induction H as [|f p Hf H IH]; cbn; [reflexivity|]. rewrite (Hf w d He). exact IH. Qed.

Lemma sil_bind {A B} (a : A) (b : B) p k : sil a p -> sil b (k a) -> sil b (pbind p k).
Proof.
  intros Hp Hk. induction Hp as [|f p Hf H IH]; cbn; [exact Hk|]. apply (sil_step b _ (pbind p k)); [|exact IH].
  intros w d He. rewrite (Hf w d He). reflexivity.
Qed.
Lemma sil_exp_load k : sil None (exp_load k).
Proof. apply (sil_step _ _ (Ret None)); [|constructor]. intros w d [He Hd]. cbn. rewrite He, lookup_empty. reflexivity. Qed.
Lemma sil_exp_delete k : sil tt (exp_delete k).
Proof.
  apply (sil_step _ _ (Ret tt)); [|constructor]. intros w d [He Hd]. cbn. rewrite He, delete_empty. unfold set_exp. destruct w. cbn in *. subst. reflexivity.
Qed.
Lemma sil_exp_reset : sil tt exp_reset.
Proof. apply (sil_step _ _ (Ret tt)); [|constructor]. intros w d [He Hd]. cbn. unfold set_exp. destruct w. cbn in *. subst. reflexivity. Qed.
Lemma sil_expired k : sil false (expired k).
Proof. unfold expired. eapply sil_bind; [apply sil_exp_load|]. constructor. Qed.

Lemma cb_sil_bind {A B} (a : A) p (k : A -> prog B) : sil a p -> cb (k a) -> cb (pbind p k).
Proof.
  intros Hp Hk. induction Hp as [|f p Hf H IH]; cbn; [exact Hk|].
  apply (cb_step _ (fun _ => false) (fun d => d) (fun _ => pbind p k)); auto; try discriminate.
  intros w d He. rewrite (Hf w d He), set_data_id by apply He. reflexivity.
Qed.
(** reading one key of the data, then going on *)
Lemma cb_data_load {A} k (q : option gval -> prog A) (D : option gval -> bool) :
  (forall v, D v = true -> exists a, sil a (q v)) -> (forall v, D v = false -> cb (q v)) -> cb (pbind (data_load k) q).
Proof.
  intros H1 H2. apply (cb_step _ (fun d => D (d !! k)) (fun d => d) (fun d => q (d !! k))); auto.
  intros w d [He Hd]. cbn. rewrite Hd, set_data_id by exact Hd. reflexivity.
Qed.
Lemma cb_data_store {A} k v (q : prog A) : (exists a, sil a q) -> cb (pbind (data_store k v) (fun _ => q)).
Proof.
  intros H. apply (cb_step _ (fun _ => true) (fun d => <[k := v]> d) (fun _ => q)); auto; try discriminate.
  intros w d [He Hd]. cbn. rewrite Hd. reflexivity.
Qed.
Lemma cb_data_delete {A} k (q : prog A) : (exists a, sil a q) -> cb (pbind (data_delete k) (fun _ => q)).
Proof.
  intros H. apply (cb_step _ (fun _ => true) (fun d => delete k d) (fun _ => q)); auto; try discriminate.
  intros w d [He Hd]. cbn. rewrite Hd. reflexivity.
Qed.
Lemma cb_data_reset {A} (q : prog A) : (exists a, sil a q) -> cb (pbind data_reset (fun _ => q)).
Proof.
  intros H. apply (cb_step _ (fun _ => true) (fun d => ∅) (fun _ => q)); auto; try discriminate.
Qed.
Lemma cb_los {A} k v (q : gval * bool -> prog A) (D : gval -> bool) :
  (exists a, sil a (q (v, false))) -> (forall x, D x = true -> exists a, sil a (q (x, true))) -> (forall x, D x = false -> cb (q (x, true))) ->
  cb (pbind (data_load_or_store k v) q).
Proof.
  intros H1 H2 H3. apply (cb_step _ (fun d => match d !! k with Some x => D x | None => true end)
    (fun d => match d !! k with Some x => d | None => <[k := v]> d end) (fun d => match d !! k with Some x => q (x, true) | None => q (v, false) end)).
  - intros w d [He Hd]. cbn. rewrite Hd. destruct (d !! k); [rewrite set_data_id by exact Hd|]; reflexivity.
  - intros d. destruct (d !! k); auto.
  - intros d. destruct (d !! k); [reflexivity|discriminate].
  - intros d. destruct (d !! k); [apply H3|discriminate].
Qed.
Lemma c_get_eq {A} k (q : option gval -> prog A) (D : option gval -> bool) :
  (forall v, D v = true -> exists a, sil a (q v)) -> (forall v, D v = false -> cb (q v)) -> cb (pbind (c_get k) q).
Proof.
  intros H1 H2.
  apply (cb_step _ (fun d => D (d !! k)) (fun d => d) (fun d => pbind match d !! k with None => Ret None | Some x => do e <- expired k; Ret (if e then None else Some x) end q)).
  - intros w d [He Hd]. cbn. rewrite Hd, set_data_id by exact Hd. reflexivity.
  - intros d Hd. destruct (H1 _ Hd) as [a Ha]. exists a. destruct (d !! k); [|exact Ha]. eapply sil_bind; [eapply sil_bind; [apply sil_expired|constructor]|]. exact Ha.
  - reflexivity.
  - intros d Hd. specialize (H2 _ Hd). destruct (d !! k); [|exact H2]. eapply cb_sil_bind; [eapply sil_bind; [apply sil_expired|constructor]|]. exact H2.
Qed.
Lemma shot_c_get {A} k (q : option gval -> prog A) : (forall v, exists a, sil a (q v)) -> shot (pbind (c_get k) q).
Proof.
  intros H. eexists _, (fun d => pbind match d !! k with None => Ret None | Some x => do e <- expired k; Ret (if e then None else Some x) end q).
  split; [reflexivity|]. split.
  - intros w d [He Hd]. cbn. rewrite Hd. reflexivity.
  - intros d. destruct (H (d !! k)) as [a Ha]. exists a. destruct (d !! k); [|exact Ha]. eapply sil_bind; [eapply sil_bind; [apply sil_expired|constructor]|]. exact Ha.
Qed.
Lemma shot_bind {A B} (p : prog A) (k : A -> prog B) : shot p -> (forall a, exists b, sil b (k a)) -> shot (pbind p k).
Proof.
  intros (f & P & -> & Hf & Hs) Hk. eexists _, (fun d => pbind (P d) k). split; [reflexivity|]. split.
  - intros w d He. rewrite (Hf w d He). reflexivity.
  - intros d. destruct (Hs d) as [a Ha]. destruct (Hk a) as [b Hb]. exists b. eapply sil_bind; eauto.
Qed.

(** ** the calls *)
Definition timeless_call (c : call) : Prop :=
  match c with
  | CSet _ _ | CSetNX _ _ | CGetSet _ _ | CAppend _ _
  | CIncr _ | CIncrBy _ _ | CIncrByFloat _ _ | CDecr _ | CDecrBy _ _ | CDel _ | CFlush
  | CGet _ | CStrLen _ | CGetRange _ _ _ | CType _ => True
  | CExists [_] | CMGet [_] => True
  | CSetRange _ pos _ => pos <= max_alloc
  | _ => False
  end.
Definition tcall (c : call) : Prop :=
  shot (call_prog c) \/
  (exists (A : Type) (b : prog A) (g : A -> reply), call_prog c = pmap g (locked b) /\ (cb b \/ exists a, sil a b)) \/
  (exists (A : Type) (b : prog A) (g : A -> reply), call_prog c = pmap g (rlocked b) /\ shot b).
Ltac silgo := first [ eexists; constructor | solve [eexists; repeat first [eapply sil_bind; [first [apply sil_exp_delete|apply sil_exp_reset|apply sil_expired]|]|constructor]] ].
Lemma cb_incr k d : cb (incr_by k d).
Proof.
  unfold incr_by. apply (cb_los _ _ _ (fun x => match incr_val x d with Some _ => false | None => true end)); cbn [snd fst negb].
  - silgo.
  - intros x. destruct (incr_val x d); [discriminate|]. intros _. silgo.
  - intros x. destruct (incr_val x d) as [[y n]|]; [|discriminate]. intros _. apply cb_data_store. silgo.
Qed.
Lemma timeless_tcall c : timeless_call c -> tcall c.
Proof.
  intros H. destruct c; cbn in H; try contradiction; unfold tcall.
  - right; left. eexists _, _, _. split; [reflexivity|]. left. apply cb_data_store. silgo.
  - right; left. eexists _, _, _. split; [reflexivity|]. left. apply (cb_los _ _ _ (fun _ => true)); try discriminate; intros; silgo.
  - right; right. eexists _, _, _. split; [reflexivity|]. apply shot_c_get. intros; silgo.
  - right; left. eexists _, _, _. split; [reflexivity|]. left. apply (c_get_eq _ _ (fun _ => false)); try discriminate. intros x _. apply cb_data_store. silgo.
  - right; right. eexists _, _, _. split; [reflexivity|]. apply shot_c_get. intros; silgo.
  - right; left. eexists _, _, _. split; [reflexivity|]. left. apply (c_get_eq _ _ (fun x => match x with Some x => match fmt_string x with Some _ => false | None => true end | None => false end)).
    + intros [x|]; [|discriminate]. destruct (fmt_string x); [discriminate|]. intros _. silgo.
    + intros [x|]; [destruct (fmt_string x); [|discriminate]|]; intros _; apply cb_data_store; silgo.
  - right; left. eexists _, _, _. split; [reflexivity|]. destruct (pos <? 0); [right; silgo|left]. cbn zeta. destruct (Z.gtb_spec pos max_alloc) as [Hgt|_]; [lia|].
    apply (c_get_eq _ _ (fun x => match x with Some x => match fmt_string x with Some _ => false | None => true end | None => false end)).
    + intros [x|]; [|discriminate]. destruct (fmt_string x); [discriminate|]. intros _. silgo.
    + intros [x|]; [destruct (fmt_string x); [|discriminate]|]; intros _; apply cb_data_store; silgo.
  - right; right. eexists _, _, _. split; [reflexivity|]. apply shot_c_get. intros; silgo.
  - right; left. eexists _, _, _. split; [reflexivity|]. left. apply cb_incr.
  - right; left. eexists _, _, _. split; [reflexivity|]. left. apply cb_incr.
  - right; left. eexists _, _, _. split; [reflexivity|]. left.
    apply (cb_los _ _ _ (fun x => match x with VFloat _ | VInt _ => false | _ => true end)); cbn [snd fst negb].
    + silgo.
    + intros x. destruct x; try discriminate; intros _; silgo.
    + intros x. destruct x; try discriminate; intros _; apply cb_data_store; silgo.
  - right; left. eexists _, _, _. split; [reflexivity|]. left. apply cb_incr.
  - right; left. eexists _, _, _. split; [reflexivity|]. left. apply cb_incr.
  - left. destruct ks as [|k [|]]; try contradiction. cbn [call_prog]. unfold pmap, m_mget. cbn [mget_loop].
    apply shot_bind; [|intros; silgo]. apply shot_c_get. intros; silgo.
  - right; left. eexists _, _, _. split; [reflexivity|]. left. apply (c_get_eq _ _ (fun _ => false)); try discriminate. intros x _. apply cb_data_delete.
    eexists. eapply sil_bind; [apply sil_exp_delete|]. constructor.
  - right; left. eexists _, _, _. split; [reflexivity|]. left. apply cb_data_reset. eexists. apply sil_exp_reset.
  - left. destruct ks as [|k [|]]; try contradiction. cbn [call_prog]. unfold pmap, m_exists. cbn [exists_loop].
    eexists _, (fun d => Ret (RInt (noerr (match d !! k with Some _ => 0 + 1 | None => 0 end)))). split; [reflexivity|]. split; [|intros; silgo].
    intros w d [He Hd]. cbn. rewrite Hd. reflexivity.
  - left. cbn [call_prog]. unfold pmap, m_type. apply shot_bind; [|intros; silgo]. apply shot_c_get. intros; silgo.
Qed.

(** ** the simulation *)
Definition thst (d : dict) (now : Z) (x : pc) (p : option (prog reply)) (s : option tst) : Prop :=
  match p, s with
  | None, None => x = Out
  | Some p, Some (Called c t0) => t0 <= now /\
      match x with
      | Out => p = call_prog c /\ tcall c
      | InW => exists (A : Type) (b0 b : prog A) g, call_prog c = pmap g (locked b0) /\ p = fin b g /\ cb b /\ forall w, exp0 w d -> eval b0 w = eval b w
      | InR => exists (A : Type) (b : prog A) g, call_prog c = pmap g (rlocked b) /\ p = finr b g /\ shot b
      end
  | Some p, Some (Decided r) =>
      match x with
      | Out => sil r p
      | InW => exists (A : Type) (b : prog A) g a, p = fin b g /\ sil a b /\ r = g a
      | InR => exists (A : Type) (b : prog A) g a, p = finr b g /\ sil a b /\ r = g a
      end
  | _, _ => False
  end.
Record sim2 (c : conf) (m : gmap nat tst) (last : Z) (ws : world) (h : option nat) (R : gset nat) (d : dict) : Prop := Sim2 {
  s_exp : exp0 (c_w c) d;
  s_w : w_writer (c_w c) = match h with Some _ => true | None => false end;
  s_r : w_readers (c_w c) = size R;
  s_ex : is_Some h -> R = ∅;
  s_last : last <= w_now (c_w c);
  s_same : set_lock (c_w c) false 0 = set_now ws (w_now (c_w c));
  s_th : forall i, thst d (w_now (c_w c)) (place h R i) (c_th c !! i) (m !! i) }.

Lemma thst_other d d' now now' x p s : now <= now' -> x <> InW -> thst d now x p s -> thst d' now' x p s.
Proof. intros Hn Hx. destruct p, s as [[]|]; cbn; auto. intros [H1 H2]. split; [lia|]. destruct x; auto. congruence. Qed.
Lemma thst_later d now now' x p s : now <= now' -> thst d now x p s -> thst d now' x p s.
Proof. intros Hn. destruct p, s as [[]|]; cbn; auto. intros [H1 H2]. split; [lia|exact H2]. Qed.
Lemma set_lock_lock w b n b' n' : set_lock (set_lock w b n) b' n' = set_lock w b' n'.
Proof. reflexivity. Qed.
Lemma exp0_lock w d b n : exp0 (set_lock w b n) d <-> exp0 w d.
Proof. reflexivity. Qed.
Lemma exp0_data w d d' : exp0 w d -> exp0 (set_data w d') d'.
Proof. intros [H1 H2]. split; [exact H1|reflexivity]. Qed.

(** evaluating a whole call *)
Lemma eval_wlock {A} (b0 : prog A) (g : A -> reply) w d w' (a : A) : w_writer w = false -> w_readers w = 0%nat -> exp0 w d ->
  eval b0 (set_lock w true 0) = Done w' a -> w_writer w' = true -> eval (pmap g (locked b0)) w = Done (set_lock w' false (w_readers w')) (g a).
Proof.
  intros H1 H2 H3 H4 H5. unfold pmap, locked. rewrite !eval_bind. cbn [eval p_lock atom]. rewrite H1, H2. cbn [orb negb Nat.eqb eval].
  rewrite eval_bind, H4. cbn. rewrite H5. reflexivity.
Qed.
Lemma eval_shot {A} (p : prog A) w d : shot p -> exp0 w d -> exists f P a, p = Step f /\ f w = Go w (P d) /\ sil a (P d) /\ eval p w = Done w a.
Proof.
  intros (f & P & -> & Hf & Hs) He. destruct (Hs d) as [a Ha]. exists f, P, a. split; [reflexivity|]. rewrite (Hf w d He). split; [reflexivity|]. split; [exact Ha|].
  cbn. rewrite (Hf w d He). eapply sil_eval; eauto.
Qed.
Lemma eval_rlock {A} (b : prog A) (g : A -> reply) w d (a : A) : w_writer w = false -> w_readers w = 0%nat -> exp0 w d ->
  eval b (set_lock w false 1) = Done (set_lock w false 1) a -> eval (pmap g (rlocked b)) w = Done (set_lock w false 0) (g a).
Proof.
  intros H1 H2 H3 H4. unfold pmap, rlocked. rewrite !eval_bind. cbn [eval p_rlock atom]. rewrite H1, H2. cbn [eval].
  rewrite eval_bind, H4. reflexivity.
Qed.

Lemma place_out_other h (R : gset nat) i j : place h R i = Out -> place h R j = InW -> j <> i.
Proof. intros H1 H2 ->. congruence. Qed.
Lemma place_union (R : gset nat) i j : j <> i -> place None ({[i]} ∪ R) j = place None R j.
Proof. intros H. unfold place. rewrite !decide_False by congruence. destruct (decide (j ∈ R)); [rewrite decide_True by set_solver|rewrite decide_False by set_solver]; reflexivity. Qed.
Lemma place_minus (R : gset nat) i j : j <> i -> place None (R ∖ {[i]}) j = place None R j.
Proof. intros H. unfold place. rewrite !decide_False by congruence. destruct (decide (j ∈ R)); [rewrite decide_True by set_solver|rewrite decide_False by set_solver]; reflexivity. Qed.

(** only goroutine [i] moved, and neither the world nor anybody's place changed *)
Lemma sim2_upd c m last ws h R d i p' s' :
  sim2 c m last ws h R d -> thst d (w_now (c_w c)) (place h R i) (Some p') (Some s') ->
  sim2 (Conf (c_w c) (<[i := p']> (c_th c))) (<[i := s']> m) last ws h R d.
Proof.
  intros [] Hp. constructor; cbn [c_w c_th]; auto. intros j. destruct (decide (j = i)) as [->|Hne]; [rewrite !lookup_insert; exact Hp|].
  rewrite !lookup_insert_ne by auto. auto.
Qed.
Lemma sim2_last c m last ws h R d : sim2 c m last ws h R d -> sim2 c m (w_now (c_w c)) (set_now ws (w_now (c_w c))) h R d.
Proof. intros []. constructor; auto. lia. Qed.
Lemma run_call_at c cl ws : set_lock (c_w c) false 0 = set_now ws (w_now (c_w c)) ->
  run_call (w_now (c_w c)) cl ws = eval (call_prog cl) (set_lock (c_w c) false 0).
Proof. intros H. unfold run_call. rewrite H. reflexivity. Qed.

Lemma sim2_step w0 A c m last ws h R d a c' e :
  lin_ok w0 A m (w_now (c_w c)) last ws -> sim2 c m last ws h R d -> cstep a c = Some (c', e) -> calls_in tcall e ->
  exists B m' last' ws' h' R' d', lin_ok w0 (A ++ B) m' (w_now (c_w c')) last' ws' /\ observed B = e /\ sim2 c' m' last' ws' h' R' d'.
Proof.
  intros HA Hs E Hin. pose proof Hs as [Hexp Hw Hr Hex Hlast Hsame Hth]. destruct a as [i cl|i|i|t]; cbn in E.
  - destruct (c_th c !! i) eqn:Ei; [discriminate|]. injection E as <- <-.
    pose proof (Hth i) as Hi. rewrite Ei in Hi. destruct (m !! i) as [[]|] eqn:Em; cbn in Hi; try contradiction.
    exists [IEv (EInv i cl)], (<[i := Called cl (w_now (c_w c))]> m), last, ws, h, R, d.
    split; [apply lo_inv; auto|]. split; [reflexivity|]. apply sim2_upd; [exact Hs|]. rewrite Hi. cbn. split; [lia|]. split; [reflexivity|]. apply (Hin i). left.
  - destruct (c_th c !! i) as [[r|f]|] eqn:Ei; try discriminate. destruct (f (c_w c)) as [w' p'| |] eqn:Ef; try discriminate. injection E as <- <-.
    pose proof (Hth i) as Hi. rewrite Ei in Hi.
    (* a decision that changes nothing *)
    assert (Hdec : forall cl t0 r, m !! i = Some (Called cl t0) -> t0 <= w_now (c_w c) -> w' = c_w c ->
       thst d (w_now (c_w c)) (place h R i) (Some p') (Some (Decided r)) ->
       eval (call_prog cl) (set_lock (c_w c) false 0) = Done (set_lock (c_w c) false 0) r ->
       exists B m' last' ws' h' R' d', lin_ok w0 (A ++ B) m' (w_now (c_w (Conf w' (<[i := p']> (c_th c))))) last' ws' /\ observed B = [] /\ sim2 (Conf w' (<[i := p']> (c_th c))) m' last' ws' h' R' d').
    { intros cl t0 r Em Ht0 -> Hp He.
      exists [ILin i (w_now (c_w c)) cl r], (<[i := Decided r]> m), (w_now (c_w c)), (set_now ws (w_now (c_w c))), h, R, d.
      split; [|split; [reflexivity|]].
      - cbn [c_w]. eapply lo_lin; eauto; try lia. rewrite run_call_at by exact Hsame. rewrite He, Hsame. reflexivity.
      - apply sim2_upd; [|exact Hp]. eapply sim2_last; eauto. }
    (* a silent step *)
    assert (Hsil : forall s', m !! i = Some s' -> w' = c_w c -> thst d (w_now (c_w c)) (place h R i) (Some p') (Some s') ->
       exists B m' last' ws' h' R' d', lin_ok w0 (A ++ B) m' (w_now (c_w (Conf w' (<[i := p']> (c_th c))))) last' ws' /\ observed B = [] /\ sim2 (Conf w' (<[i := p']> (c_th c))) m' last' ws' h' R' d').
    { intros s' Em -> Hp. exists [], m, last, ws, h, R, d. rewrite app_nil_r. split; [exact HA|]. split; [reflexivity|].
      rewrite <- (insert_id m i s' Em). apply sim2_upd; auto. }
    assert (Hlk : exp0 (set_lock (c_w c) false 0) d) by (apply exp0_lock; exact Hexp).
    destruct (m !! i) as [[cl t0|r]|] eqn:Em; cbn in Hi; [| |contradiction].
    + destruct Hi as [Ht0 Hi]. destruct (place h R i) eqn:Epl.
      * destruct Hi as [Hp [Hsh|[(X & b & g & Ec & Hb)|(X & b & g & Ec & Hb)]]].
        -- (* unlocked reader decides *)
           destruct (eval_shot _ _ _ Hsh Hexp) as (f' & P & a & Ep & Efw & Ha & _). rewrite Ep in Hp. injection Hp as ->. rewrite Efw in Ef. injection Ef as <- <-.
           eapply Hdec; eauto. destruct Hsh as (f2 & P2 & Ep2 & Hf2 & _). rewrite Ep2. cbn. rewrite (Hf2 _ _ Hlk).
           assert (P2 d = P d). { rewrite Ep2 in Ep. injection Ep as ->. rewrite (Hf2 _ _ Hexp) in Efw. congruence. } rewrite H. eapply sil_eval; eauto.
        -- (* lock *)
           rewrite Ec in Hp. cbn in Hp. injection Hp as ->. rewrite Hw, Hr in Ef. destruct h as [h|]; cbn in Ef; [discriminate|].
           destruct (Nat.eqb_spec (size R) 0) as [Hz|]; cbn in Ef; [|discriminate]. injection Ef as <- <-.
           assert (HR : R = ∅) by (apply leibniz_equiv, size_empty_iff, Hz). subst R.
           assert (Hothers : forall j s', j <> i -> thst d (w_now (c_w c)) (place (Some i) ∅ j) (<[i := fin b g]> (c_th c) !! j) (<[i := s']> m !! j)).
           { intros j s' Hne. rewrite !lookup_insert_ne by auto. rewrite place_other by auto. apply Hth. }
           assert (Hpi : place (Some i) ∅ i = InW) by (unfold place; rewrite decide_True; auto).
           destruct Hb as [Hb|[a Hb]].
           ++ exists [], m, last, ws, (Some i), ∅, d. rewrite app_nil_r. split; [exact HA|]. split; [reflexivity|].
              constructor; cbn [c_w c_th w_writer w_readers set_lock w_now]; auto.
              intros j. destruct (decide (j = i)) as [->|Hne].
              ** rewrite lookup_insert, Em, Hpi. cbn. split; [exact Ht0|]. exists X, b, b, g. auto.
              ** specialize (Hothers j (Called cl t0) Hne). rewrite (lookup_insert_ne m) in Hothers by auto. exact Hothers.
           ++ exists [ILin i (w_now (c_w c)) cl (g a)], (<[i := Decided (g a)]> m), (w_now (c_w c)), (set_now ws (w_now (c_w c))), (Some i), ∅, d.
              split; [|split; [reflexivity|]].
              ** cbn [c_w w_now set_lock set_data]. eapply lo_lin; eauto; try (cbn; lia). rewrite run_call_at by exact Hsame. rewrite Ec.
                 rewrite (eval_wlock b g _ d (set_lock (c_w c) true 0) a); auto; [rewrite <- Hsame; reflexivity|]. eapply sil_eval; eauto.
              ** constructor; cbn [c_w c_th w_writer w_readers set_lock w_now]; auto; [lia|].
                 intros j. destruct (decide (j = i)) as [->|Hne]; [|auto].
                 rewrite !lookup_insert, Hpi. cbn. exists X, b, g, a. auto.
        -- (* rlock *)
           rewrite Ec in Hp. cbn in Hp. injection Hp as ->. rewrite Hw in Ef. destruct h as [h|]; cbn in Ef; [discriminate|]. injection Ef as <- <-.
           apply place_O in Epl as [_ HiR]. exists [], m, last, ws, None, ({[i]} ∪ R), d. rewrite app_nil_r. split; [exact HA|]. split; [reflexivity|].
           constructor; cbn [c_w c_th w_writer w_readers set_lock w_now]; auto.
           ++ rewrite size_union by set_solver. rewrite size_singleton, Hr. reflexivity.
           ++ intros [? ?]. discriminate.
           ++ intros j. destruct (decide (j = i)) as [->|Hne].
              ** rewrite lookup_insert, Em. unfold place. rewrite decide_False, decide_True by (congruence || set_solver). cbn. split; [exact Ht0|]. exists X, b, g. auto.
              ** rewrite lookup_insert_ne by auto. rewrite place_union by auto. apply Hth.
      * (* writer inside, undecided *)
        destruct Hi as (X & b0 & b & g & Ec & Hp & Hb & Hev). inversion Hb as [fb D F P H1 H2 H3 H4]; subst b.
        cbn in Hp. injection Hp as ->. rewrite (H1 _ _ Hexp) in Ef. cbn in Ef. injection Ef as <- <-.
        destruct (D d) eqn:ED.
        -- destruct (H2 d ED) as [a Ha]. pose proof Epl as Epl'. apply place_W in Epl'. subst h. specialize (Hex (ex_intro _ _ eq_refl)). subst R.
           exists [ILin i (w_now (c_w c)) cl (g a)], (<[i := Decided (g a)]> m), (w_now (c_w c)), (set_lock (set_data (c_w c) (F d)) false 0), (Some i), ∅, (F d).
           split; [|split; [reflexivity|]].
           ++ cbn [c_w w_now set_lock set_data]. eapply lo_lin; eauto; try (cbn; lia). rewrite run_call_at by exact Hsame. rewrite Ec.
              rewrite (eval_wlock b0 g _ d (set_lock (set_data (c_w c) (F d)) true 0) a); auto.
              rewrite Hev by (apply exp0_lock, exp0_lock, Hexp). cbn. rewrite (H1 (set_lock (set_lock (c_w c) false 0) true 0) d) by (apply exp0_lock, exp0_lock, Hexp).
              eapply sil_eval; [exact Ha|]. eapply exp0_data, Hexp.
           ++ constructor; cbn [c_w c_th w_writer w_readers set_lock w_now set_data]; auto; try lia; try reflexivity.
              ** apply exp0_data with d, Hexp.
              ** intros j. destruct (decide (j = i)) as [->|Hne].
                 --- rewrite !lookup_insert, Epl. cbn. exists X, (P d), g, a. auto.
                 --- rewrite !lookup_insert_ne by auto. eapply thst_other; [reflexivity| |apply Hth]. intros Hj. apply place_W in Hj. congruence.
        -- eapply Hsil; [reflexivity| |].
           ++ rewrite (H3 d ED). apply set_data_id, Hexp.
           ++ cbn. split; [exact Ht0|]. exists X, b0, (P d), g. split; [exact Ec|]. split; [reflexivity|]. split; [auto|].
              intros w Hwd. rewrite (Hev w Hwd). cbn. rewrite (H1 w d Hwd), (H3 d ED), set_data_id by apply Hwd. reflexivity.
      * (* reader inside decides *)
        destruct Hi as (X & b & g & Ec & Hp & Hsh). destruct (eval_shot _ _ _ Hsh Hexp) as (f' & P & a & -> & Efw & Ha & _).
        cbn in Hp. injection Hp as ->. rewrite Efw in Ef. injection Ef as <- <-.
        eapply Hdec; eauto.
        -- cbn. exists X, (P d), g, a. auto.
        -- rewrite Ec. refine (eval_rlock (Step f') g (set_lock (c_w c) false 0) d a _ _ _ _); auto. destruct Hsh as (f2 & P2 & Ep2 & Hf2 & _). injection Ep2 as <-.
           cbn. rewrite (Hf2 (set_lock (set_lock (c_w c) false 0) false 1) d) by (apply exp0_lock, exp0_lock, Hexp).
           assert (P2 d = P d) by (rewrite (Hf2 _ _ Hexp) in Efw; congruence). rewrite H. eapply sil_eval; [exact Ha|]. apply exp0_lock, exp0_lock, Hexp.
    + (* decided already *)
      destruct (place h R i) eqn:Epl.
      * inversion Hi as [|f' p0 H1 H2]; subst. rewrite (H1 _ _ Hexp) in Ef. injection Ef as <- <-. eapply Hsil; eauto.
      * destruct Hi as (X & b & g & a & Hp & Hsl & ->). inversion Hsl as [|fb p0 H1 H2]; subst b.
        -- (* unlock *)
           cbn in Hp. injection Hp as ->. rewrite Hw in Ef. pose proof Epl as Epl'. apply place_W in Epl'. subst h. specialize (Hex (ex_intro _ _ eq_refl)). subst R.
           injection Ef as <- <-. exists [], m, last, ws, None, ∅, d. rewrite app_nil_r. split; [exact HA|]. split; [reflexivity|].
           constructor; cbn [c_w c_th w_writer w_readers set_lock w_now]; auto.
           intros j. destruct (decide (j = i)) as [->|Hne].
           ++ rewrite lookup_insert, Em. cbn. constructor.
           ++ rewrite lookup_insert_ne, <- (place_other ∅ i j) by auto. apply Hth.
        -- cbn in Hp. injection Hp as ->. rewrite (H1 _ _ Hexp) in Ef. cbn in Ef. injection Ef as <- <-. eapply Hsil; eauto. cbn. exists X, p0, g, a. auto.
      * destruct Hi as (X & b & g & a & Hp & Hsl & ->). inversion Hsl as [|fb p0 H1 H2]; subst b.
        -- (* runlock *)
           cbn in Hp. injection Hp as ->. rewrite Hr in Ef. apply place_R in Epl as [Hh HiR].
           assert (Hsz : size R = Datatypes.S (size (R ∖ {[i]}))).
           { rewrite (union_difference_L {[i]} R) at 1 by set_solver. rewrite size_union by set_solver. rewrite size_singleton. reflexivity. }
           rewrite Hsz in Ef. cbn in Ef. injection Ef as <- <-.
           assert (Hn : h = None). { destruct h; [|reflexivity]. rewrite Hex in HiR by eauto. set_solver. } subst h.
           exists [], m, last, ws, None, (R ∖ {[i]}), d. rewrite app_nil_r. split; [exact HA|]. split; [reflexivity|].
           constructor; cbn [c_w c_th w_writer w_readers set_lock w_now]; auto.
           ++ intros [? ?]. discriminate.
           ++ intros j. destruct (decide (j = i)) as [->|Hne].
              ** rewrite lookup_insert, Em. unfold place. rewrite !decide_False by (congruence || set_solver). cbn. constructor.
              ** rewrite lookup_insert_ne by auto. rewrite place_minus by auto. apply Hth.
        -- cbn in Hp. injection Hp as ->. rewrite (H1 _ _ Hexp) in Ef. cbn in Ef. injection Ef as <- <-. eapply Hsil; eauto. cbn. exists X, p0, g, a. auto.
  - destruct (c_th c !! i) as [[r|f]|] eqn:Ei; try discriminate. injection E as <- <-. pose proof (Hth i) as Hi. rewrite Ei in Hi.
    assert (Hm : m !! i = Some (Decided r) /\ place h R i = Out).
    { destruct (m !! i) as [[cl t0|r']|] eqn:Em; cbn in Hi; [exfalso| |contradiction].
      - destruct Hi as [_ Hi]. destruct (place h R i).
        + destruct Hi as [Hp [(f & P & Ep & _)|[(X & b & g & Ec & _)|(X & b & g & Ec & _)]]]; [rewrite Ep in Hp|rewrite Ec in Hp|rewrite Ec in Hp]; discriminate Hp.
        + destruct Hi as (X & b0 & b & g & _ & Hp & Hb & _). destruct Hb. discriminate Hp.
        + destruct Hi as (X & b & g & _ & Hp & (f & P & -> & _)). discriminate Hp.
      - destruct (place h R i).
        + inversion Hi; subst. auto.
        + destruct Hi as (X & b & g & a & Hp & Hb & _). destruct Hb; discriminate Hp.
        + destruct Hi as (X & b & g & a & Hp & Hb & _). destruct Hb; discriminate Hp. }
    destruct Hm as [Em Hout]. exists [IEv (ERet i r)], (delete i m), last, ws, h, R, d. split; [apply lo_ret; auto|]. split; [reflexivity|].
    constructor; cbn [c_w c_th]; auto. intros j. destruct (decide (j = i)) as [->|Hne]; [rewrite !lookup_delete; exact Hout|].
    rewrite !lookup_delete_ne by auto. apply Hth.
  - destruct (Z.leb_spec (w_now (c_w c)) t) as [Ht|]; [|discriminate]. injection E as <- <-.
    exists [IEv (ETick t)], m, last, ws, h, R, d. cbn [c_w w_now set_now]. split; [eapply lo_tick; eauto|]. split; [reflexivity|].
    constructor; cbn [c_w c_th w_writer w_readers w_now set_now]; auto; [lia| |].
    + transitivity (set_now (set_lock (c_w c) false 0) t); [reflexivity|]. rewrite Hsame. reflexivity.
    + intros j. eapply thst_later; [exact Ht|apply Hth].
Qed.

Lemma lin_exec2 w0 s c evs d :
  w_writer w0 = false -> w_readers w0 = 0%nat -> exp0 w0 d -> calls_in tcall evs -> cexec s (start w0) = Some (c, evs) ->
  exists A m last ws h R d', lin_ok w0 A m (w_now (c_w c)) last ws /\ observed A = evs /\ sim2 c m last ws h R d'.
Proof.
  intros H1 H2 H3 Hc E.
  refine (cexec_inv (fun c evs => calls_in tcall evs -> exists A m last ws h R d, lin_ok w0 A m (w_now (c_w c)) last ws /\ observed A = evs /\ sim2 c m last ws h R d)
    s (start w0) c evs _ [] _ E Hc).
  - intros c1 evs1 a c2 e IH Es Hin. apply calls_in_app in Hin as [Hi1 Hi2]. destruct (IH Hi1) as (A & m & last & ws & h & R & d1 & HA & Hobs & Hsim).
    destruct (sim2_step _ _ _ _ _ _ _ _ _ _ _ _ HA Hsim Es Hi2) as (B & m' & last' & ws' & h' & R' & d' & HB & HoB & Hsim').
    exists (A ++ B), m', last', ws', h', R', d'. split; [exact HB|]. split; [rewrite observed_app; congruence|exact Hsim'].
  - intros _. exists [], ∅, (w_now w0), w0, None, ∅, d. split; [constructor|]. split; [reflexivity|].
    constructor; cbn [c_w c_th start]; auto; [lia| |].
    + rewrite set_now_id. unfold set_lock. destruct w0. cbn in *. subst. reflexivity.
    + intros i. rewrite !lookup_empty. cbn. unfold place. rewrite !decide_False by (congruence || set_solver). reflexivity.
Qed.
