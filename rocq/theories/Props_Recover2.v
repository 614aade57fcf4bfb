(** * Props_Recover2: among goroutines, whatever panics are recovered, only the calls of C192 panic *)
From stdpp Require Import relations.
From Verif Require Import Base GoFloat CacheModel CacheSpec CacheConc RecoverModel.
From Verif Require Import CacheAbs ConcLin ConcSafe Props_String Props_Conc Props_Recover.

(** as [safe], for programs that may panic *)
Inductive calm {R} (Q : (positive -> Prop) -> R -> Prop) : (positive -> Prop) -> prog R -> Prop :=
| calm_ret (L : positive -> Prop) r : Q L r -> calm Q L (Ret r)
| calm_step (L : positive -> Prop) f :
    (forall w w' p', okd w -> (forall l, L l -> valid w l) -> f w = Go w' p' -> okd w') ->
    (forall w w' p', okd w -> (forall l, L l -> valid w l) -> f w = Go w' p' -> forall l, valid w l -> valid w' l) ->
    (forall w w' p', okd w -> (forall l, L l -> valid w l) -> f w = Go w' p' -> calm Q (valid w') p') ->
    calm Q L (Step f).
Lemma safe_calm {R} (Q : (positive -> Prop) -> R -> Prop) L p : safe Q L p -> calm Q L p.
Proof. intros H. induction H; constructor; eauto. Qed.
Lemma calm_mono {R} (L L' : positive -> Prop) (p : prog R) : (forall l, L l -> L' l) -> calm any L p -> calm any L' p.
Proof. intros HL Hp. destruct Hp as [L r H|L f H2 H3 H4]; [constructor; exact I|constructor; eauto]. Qed.
Lemma calm_bind {A B} (Q' : (positive -> Prop) -> A -> Prop) (Q : (positive -> Prop) -> B -> Prop) L p (k : A -> prog B) :
  calm Q' L p -> (forall (L' : positive -> Prop) r, (forall l, L l -> L' l) -> Q' L' r -> calm Q L' (k r)) -> calm Q L (pbind p k).
Proof.
  intros Hp. induction Hp as [L r H|L f H2 H3 H4 IH]; intros Hk; cbn; [apply Hk; auto|]. constructor.
  - intros w w' p' Hw HL. destruct (f w) as [w1 p1| |] eqn:E; try discriminate. intros [= <- <-]. eauto.
  - intros w w' p' Hw HL. destruct (f w) as [w1 p1| |] eqn:E; try discriminate. intros [= <- <-]. eauto.
  - intros w w' p' Hw HL. destruct (f w) as [w1 p1| |] eqn:E; try discriminate. intros [= <- <-].
    eapply IH; [exact Hw|exact HL|exact E|]. intros L' r HL' HQ. apply Hk; [|exact HQ]. intros l Hl. apply HL'. eapply H3; eauto.
Qed.
Lemma calm_panic {A} (Q : (positive -> Prop) -> A -> Prop) L : calm Q L panic.
Proof. constructor; intros; discriminate. Qed.
Lemma sf_visit l ks : forall L : positive -> Prop, L l -> safe (fun L _ => L l) L (h_visit l ks).
Proof.
  induction ks as [|k r IH]; intros L Hl; cbn [h_visit]; [constructor; exact Hl|]. sb ltac:(apply sf_h_load; exact Hl).
  sb ltac:(apply IH; exact HQ). constructor. exact HQ0.
Qed.
Lemma sf_range l (L : positive -> Prop) : L l -> safe (fun L _ => L l) L (h_range l).
Proof. intros Hl. unfold h_range. eapply safe_bind; [apply sf_h; [exact Hl|auto]|]. intros L' ks _ H. apply sf_visit, H. Qed.

Definition bd (cl : call) {R} (w : world) (p : prog R) : Prop := nl p /\ calm any (valid w) p /\ (no_crash cl -> safe any (valid w) p).
Lemma bd_grow cl {R} w w' (p : prog R) : (forall l, valid w l -> valid w' l) -> bd cl w p -> bd cl w' p.
Proof. intros Hw (H1 & H2 & H3). split; [exact H1|]. split; [eapply calm_mono; eauto|]. intros Hn. eapply safe_mono; [|exact Hw|exact (H3 Hn)]. intros; exact I. Qed.
Lemma bd_ret cl {R} w (r : R) : bd cl w (Ret r).
Proof. split; [constructor|]. split; [constructor; exact I|]. intros _. constructor. exact I. Qed.
Lemma bd_step cl {R} w (f : world -> ares (prog R)) w' p' : okd w -> bd cl w (Step f) -> f w = Go w' p' ->
  (w_writer w' = w_writer w /\ w_readers w' = w_readers w) /\ okd w' /\ (forall l, valid w l -> valid w' l) /\ bd cl w' p'.
Proof.
  intros Hok (H1 & H2 & H3) E. inversion H1 as [|f' N1 N2 N3]; subst. inversion H2 as [|L f' S2 S3 S4]; subst. split; [eauto|]. split; [eapply S2; eauto|]. split; [eapply S3; eauto|].
  split; [eauto|]. split; [eapply S4; eauto|]. intros Hn. specialize (H3 Hn). inversion H3 as [|L f' T1 T2 T3 T4]; subst. eapply T4; eauto.
Qed.
Definition qat (cl : call) (w : world) (x : pc) (p : prog reply) : Prop :=
  match x with
  | Out => (exists r, p = Ret r) \/ (deferred cl = DNone /\ bd cl w p) \/
           ((deferred cl = DUnlock \/ cl = CCron) /\ exists (A : Type) (b : prog A) g, p = pmap g (locked b) /\ bd cl w b) \/
           (deferred cl = DRUnlock /\ exists (A : Type) (b : prog A) g, p = pmap g (rlocked b) /\ bd cl w b)
  | InW => (deferred cl = DUnlock \/ cl = CCron) /\ exists (A : Type) (b : prog A) g, p = fin b g /\ bd cl w b
  | InR => deferred cl = DRUnlock /\ exists (A : Type) (b : prog A) g, p = finr b g /\ bd cl w b
  end.
Lemma qat_grow cl w w' x p : (forall l, valid w l -> valid w' l) -> qat cl w x p -> qat cl w' x p.
Proof.
  intros Hw. destruct x; cbn.
  - intros [H|[[H1 H]|[(H1 & A & b & g & E & H)|(H1 & A & b & g & E & H)]]]; [left; exact H|right; left|right; right; left|right; right; right]; (split; [exact H1|]); [eapply bd_grow; eauto| |]; exists A, b, g; split; auto; eapply bd_grow; eauto.
  - intros (H1 & A & b & g & E & H). split; [exact H1|]. exists A, b, g. split; auto. eapply bd_grow; eauto.
  - intros (H1 & A & b & g & E & H). split; [exact H1|]. exists A, b, g. split; auto. eapply bd_grow; eauto.
Qed.
Lemma cl_enum {A B} k (K : positive -> prog (gret A)) (z : gret A) (g : gret A -> B) (L : positive -> Prop) :
  (forall (L : positive -> Prop) l, L l -> calm any L (K l)) ->
  calm any L (pmap g (do h <- get_hash_entry k; match h with HWrong => Ret z | HNil => panic | HEntry l => K l end)).
Proof.
  intros HK. unfold pmap. eapply calm_bind with (Q' := any); [|intros ? ? ? ?; constructor; exact I].
  eapply calm_bind; [apply safe_calm, sf_ghe|]. intros L' h _ Hh. destruct h; [apply calm_panic|apply HK, Hh|constructor; exact I].
Qed.
Lemma call_calm cl : shape (fun R p => forall w, okd w -> bd cl w p) cl.
Proof.
  assert (Hlift : forall R (p : prog R), no_crash cl -> sfe true p -> forall w, okd w -> bd cl w p).
  { intros R p Hn [H1 H2] w _. specialize (H2 eq_refl). assert (G : safe any (valid w) p) by (eapply safe_mono; [| |exact H2]; [intros; exact I|intros ? []]).
    split; [exact H1|]. split; [apply safe_calm, G|auto]. }
  assert (Hfree : (exists k, cl = CHKeys k \/ cl = CHVals k \/ cl = CHGetAll k) \/ (exists k pos r, cl = CSetRange k pos r) \/ no_crash cl) by (destruct cl; cbn; eauto 9).
  destruct Hfree as [(k & Hc)|[(k & pos & r & ->)|Hn]].
  - left. intros w Hok. split; [|split; [|intros Hn; destruct Hc as [->|[->| ->]]; destruct Hn]].
    + destruct Hc as [->|[->| ->]]; cbn [call_prog]; unfold pmap; unf; nlgo.
    + destruct Hc as [->|[->| ->]]; cbn [call_prog]; unf; apply cl_enum; intros L l Hl; (eapply calm_bind; [apply safe_calm, sf_range, Hl|]); intros L' es _ _; cbn beta;
        try (destruct (existsb hgetall_bad es); [apply calm_panic|]); constructor; exact I.
  - right; left. eexists _, _, _. split; [reflexivity|]. intros w Hok. split; [unf; nlgo|].
    assert (G : forall (b : prog (gret Z)), calm any (valid w) b -> (pos <= max_alloc -> safe any (valid w) b) -> calm any (valid w) b /\ (no_crash (CSetRange k pos r) -> safe any (valid w) b)) by auto.
    apply G; clear G.
    + destruct (pos <? 0); [constructor; exact I|]. cbn zeta. eapply calm_bind with (Q' := any); [apply safe_calm, sf_load_live|]. intros L' old _ _. destruct old as [x|].
      * destruct (fmt_string x); [|constructor; exact I]. apply safe_calm. cbn zeta. sb ltac:(apply sf_data_store, good_try). sd.
      * destruct (pos >? max_alloc); [apply calm_panic|]. apply safe_calm. cbn zeta. sb ltac:(apply sf_data_store, good_try). sd.
    + intros Hp. sfgo.
  - destruct (call_shape true cl (fun _ => Hn)) as [H|[(A & b & g & E & H)|(A & b & g & E & H)]]; [left|right; left|right; right]; eauto 9.
Qed.
Lemma qat_call cl w : okd w -> qat cl w Out (call_prog cl).
Proof.
  intros Hok. pose proof (call_calm cl) as Hc. destruct (rat_call cl) as [[r E]|[[Hd H]|[(Hd & A & b & g & E & H)|(Hd & A & b & g & E & H)]]].
  - left. eauto.
  - right; left. split; [exact Hd|]. destruct Hc as [Hc|[(A & b & g & E & Hc)|(A & b & g & E & Hc)]]; [apply Hc, Hok| |]; exfalso; rewrite E in H; inversion H as [|f N1 N2 N3]; subst.
    + destruct (N2 (set_lock w false 0) (set_lock w true 0) _ eq_refl) as [H1 _]. discriminate H1.
    + destruct (N2 (set_lock w false 0) (set_lock w false 1) _ eq_refl) as [_ H1]. discriminate H1.
  - right; right; left. split; [exact Hd|]. destruct Hc as [Hc|[(A' & b' & g' & E' & Hc)|(A' & b' & g' & E' & Hc)]].
    + exfalso. specialize (Hc w Hok). rewrite E in Hc. destruct Hc as [Hn _]. inversion Hn as [|f N1 N2 N3]; subst. destruct (N2 (set_lock w false 0) (set_lock w true 0) _ eq_refl) as [H1 _]. discriminate H1.
    + exists A', b', g'. auto.
    + exfalso. rewrite E in E'. cbn in E'. injection E' as E'. apply (f_equal (fun f => f (set_lock w false 1))) in E'. discriminate E'.
  - right; right; right. split; [exact Hd|]. destruct Hc as [Hc|[(A' & b' & g' & E' & Hc)|(A' & b' & g' & E' & Hc)]].
    + exfalso. specialize (Hc w Hok). rewrite E in Hc. destruct Hc as [Hn _]. inversion Hn as [|f N1 N2 N3]; subst. destruct (N2 (set_lock w false 0) (set_lock w false 1) _ eq_refl) as [_ H1]. discriminate H1.
    + exfalso. rewrite E in E'. cbn in E'. injection E' as E'. apply (f_equal (fun f => f (set_lock w false 1))) in E'. discriminate E'.
    + exists A', b', g'. auto.
Qed.
Record qinv (c : conf) (M : gmap nat call) (h : option nat) (R : gset nat) : Prop := Qinv {
  qi_w : w_writer (c_w c) = match h with Some _ => true | None => false end;
  qi_r : w_readers (c_w c) = size R;
  qi_ex : is_Some h -> R = ∅;
  qi_ok : okd (c_w c);
  qi_th : forall i, match c_th c !! i, M !! i with
                    | Some p, Some cl => qat cl (c_w c) (place h R i) p
                    | None, None => place h R i = Out
                    | _, _ => False
                    end }.
Lemma okd_lock w b n : okd w -> okd (set_lock w b n). Proof. intros [H1 H2 H3 H4]. constructor; auto. Qed.
Lemma qinv_run c M h R i f w' p' : qinv c M h R -> c_th c !! i = Some (Step f) -> f (c_w c) = Go w' p' -> exists h' R', qinv (Conf w' (<[i := p']> (c_th c))) M h' R'.
Proof.
  intros [Hw Hr Hex Hok Hth] Ei Ef. pose proof (Hth i) as Hi. rewrite Ei in Hi. destruct (M !! i) as [cl|] eqn:Em; [|destruct Hi].
  assert (Hput : forall h' R', (forall j, j <> i -> place h' R' j = place h R j) -> (forall l, valid (c_w c) l -> valid w' l) -> qat cl w' (place h' R' i) p' ->
            forall j, match (<[i := p']> (c_th c)) !! j, M !! j with Some p, Some cl => qat cl w' (place h' R' j) p | None, None => place h' R' j = Out | _, _ => False end).
  { intros h' R' Hpl Hv Hp j. destruct (decide (j = i)) as [->|Hne]; [rewrite lookup_insert, Em; exact Hp|]. rewrite lookup_insert_ne, Hpl by auto.
    specialize (Hth j). destruct (c_th c !! j), (M !! j); auto. eapply qat_grow; eauto. }
  assert (Hbody : (w_writer w' = w_writer (c_w c) /\ w_readers w' = w_readers (c_w c)) -> okd w' -> (forall l, valid (c_w c) l -> valid w' l) -> qat cl w' (place h R i) p' -> exists h' R', qinv (Conf w' (<[i := p']> (c_th c))) M h' R').
  { intros [H1 H2] Ho Hv Hp. exists h, R. constructor; cbn [c_w c_th]; [congruence|congruence|exact Hex|exact Ho|apply Hput; auto]. }
  destruct (place h R i) eqn:Epl; cbn [qat] in Hi.
  - destruct Hi as [[r ?]|[[Hd Hb]|[(Hd & A & b & g & Ec & Hb)|(Hd & A & b & g & Ec & Hb)]]]; [discriminate| | |].
    + destruct (bd_step cl _ _ _ _ Hok Hb Ef) as (H1 & H2 & H3 & H4). apply Hbody; auto. right; left. auto.
    + cbn in Ec. injection Ec as ->. rewrite Hw, Hr in Ef. destruct h as [h|]; cbn in Ef; [discriminate|].
      destruct (Nat.eqb_spec (size R) 0) as [Hs|]; cbn in Ef; [|discriminate]. injection Ef as <- <-.
      assert (HR : R = ∅) by (apply leibniz_equiv, size_empty_iff, Hs). subst R.
      exists (Some i), ∅. constructor; cbn [c_w c_th]; auto using okd_lock. apply Hput; [intros j Hj; apply place_other, Hj|auto|].
      unfold place. rewrite decide_True by auto. split; [exact Hd|]. exists A, b, g. split; [reflexivity|exact Hb].
    + cbn in Ec. injection Ec as ->. rewrite Hw in Ef. destruct h as [h|]; cbn in Ef; [discriminate|]. injection Ef as <- <-.
      apply place_O in Epl as [_ HiR]. exists None, ({[i]} ∪ R). constructor; cbn [c_w c_th]; auto using okd_lock.
      * cbn. rewrite size_union by set_solver. rewrite size_singleton, Hr. reflexivity.
      * intros [? ?]. discriminate.
      * apply Hput; [intros j Hj; apply place_add, Hj|auto|]. unfold place. rewrite decide_False, decide_True by (congruence || set_solver). split; [exact Hd|]. exists A, b, g. split; [reflexivity|exact Hb].
  - apply place_W in Epl. subst h. destruct Hi as (Hd & A & b & g & Ec & Hb). destruct b as [r|fb]; cbn in Ec; injection Ec as ->.
    + rewrite Hw in Ef. injection Ef as <- <-. specialize (Hex (ex_intro _ _ eq_refl)). subst R.
      exists None, ∅. constructor; cbn [c_w c_th]; auto using okd_lock. apply Hput; [intros j Hj; symmetry; apply place_other, Hj|auto|]. left. eauto.
    + destruct (fb (c_w c)) as [w1 b1| |] eqn:Efb; cbn in Ef; try discriminate. injection Ef as -> <-.
      destruct (bd_step cl _ _ _ _ Hok Hb Efb) as (H1 & H2 & H3 & H4). apply Hbody; auto. split; [exact Hd|]. exists A, b1, g. split; [reflexivity|exact H4].
  - apply place_R in Epl as [Hh HiR]. destruct Hi as (Hd & A & b & g & Ec & Hb). destruct b as [r|fb]; cbn in Ec; injection Ec as ->.
    + rewrite Hr, (size_rm R i HiR) in Ef. cbn in Ef. injection Ef as <- <-.
      assert (Hn : h = None). { destruct h; [|reflexivity]. rewrite Hex in HiR by eauto. set_solver. } subst h.
      exists None, (R ∖ {[i]}). constructor; cbn [c_w c_th]; auto using okd_lock.
      * intros [? ?]. discriminate.
      * apply Hput; [intros j Hj; apply place_rm, Hj|auto|]. rewrite place_rm_i. left. eauto.
    + destruct (fb (c_w c)) as [w1 b1| |] eqn:Efb; cbn in Ef; try discriminate. injection Ef as -> <-.
      destruct (bd_step cl _ _ _ _ Hok Hb Efb) as (H1 & H2 & H3 & H4). apply Hbody; auto. split; [exact Hd|]. exists A, b1, g. split; [reflexivity|exact H4].
Qed.
Lemma bd_ok {R} cl w (f : world -> ares (prog R)) : okd w -> bd cl w (Step f) -> no_crash cl -> f w <> Panic.
Proof. intros Hok (_ & _ & H) Hn. specialize (H Hn). inversion H as [|L f' S1 S2 S3 S4]; subst. apply S1; auto. Qed.
Lemma qat_ok c M h R i f cl : qinv c M h R -> c_th c !! i = Some (Step f) -> M !! i = Some cl -> no_crash cl -> f (c_w c) <> Panic.
Proof.
  intros [Hw Hr Hex Hok Hth] Ei Em Hn. specialize (Hth i). rewrite Ei, Em in Hth. destruct (place h R i) eqn:Ep; cbn [qat] in Hth.
  - destruct Hth as [[r ?]|[[Hd Hb]|[(Hd & A & b & g & Ec & Hb)|(Hd & A & b & g & Ec & Hb)]]]; [discriminate| | |].
    + eapply bd_ok; eauto.
    + cbn in Ec. injection Ec as ->. destruct (w_writer (c_w c) || negb (Nat.eqb (w_readers (c_w c)) 0)); discriminate.
    + cbn in Ec. injection Ec as ->. destruct (w_writer (c_w c)); discriminate.
  - apply place_W in Ep. subst h. destruct Hth as (_ & A & b & g & Ec & Hb). destruct b as [r|fb]; cbn in Ec; injection Ec as ->.
    + rewrite Hw. discriminate.
    + pose proof (bd_ok cl _ _ Hok Hb Hn) as H. destruct (fb (c_w c)); [discriminate|discriminate|congruence].
  - apply place_R in Ep as [_ HiR]. destruct Hth as (_ & A & b & g & Ec & Hb). destruct b as [r|fb]; cbn in Ec; injection Ec as ->.
    + rewrite Hr, (size_rm R i HiR). discriminate.
    + pose proof (bd_ok cl _ _ Hok Hb Hn) as H. destruct (fb (c_w c)); [discriminate|discriminate|congruence].
Qed.
Lemma qinv_unwind c M h R i f cl w' : qinv c M h R -> c_th c !! i = Some (Step f) -> M !! i = Some cl -> f (c_w c) = Panic -> unwind cl (c_w c) = Some w' ->
  exists h' R', qinv (Conf w' (delete i (c_th c))) (delete i M) h' R'.
Proof.
  intros [Hw Hr Hex Hok Hth] Ei Em Ef Eu. pose proof (Hth i) as Hi. rewrite Ei, Em in Hi.
  assert (Hn : cl <> CCron) by (intros ->; discriminate Eu).
  assert (Hdel : forall h' R', (forall j, j <> i -> place h' R' j = place h R j) -> (forall l, valid (c_w c) l -> valid w' l) -> place h' R' i = Out ->
            forall j, match delete i (c_th c) !! j, delete i M !! j with Some p, Some cl => qat cl w' (place h' R' j) p | None, None => place h' R' j = Out | _, _ => False end).
  { intros h' R' Hpl Hv Hp j. destruct (decide (j = i)) as [->|Hne]; [rewrite !lookup_delete; exact Hp|]. rewrite !lookup_delete_ne, Hpl by auto.
    specialize (Hth j). destruct (c_th c !! j), (M !! j); auto. eapply qat_grow; eauto. }
  assert (Hu : unwind cl (c_w c) = match deferred cl with
         | DNone => Some (c_w c)
         | DUnlock => if w_writer (c_w c) then Some (set_lock (c_w c) false (w_readers (c_w c))) else None
         | DRUnlock => match w_readers (c_w c) with O => None | S n => Some (set_lock (c_w c) (w_writer (c_w c)) n) end end).
  { destruct cl; try congruence; cbn; try reflexivity; try (destruct (w_writer (c_w c)); reflexivity); destruct (w_readers (c_w c)); reflexivity. }
  rewrite Hu in Eu. destruct (place h R i) eqn:Epl; cbn [qat] in Hi.
  - destruct Hi as [[r ?]|[[Hd Hb]|[(Hd & A & b & g & Ec & Hb)|(Hd & A & b & g & Ec & Hb)]]]; [discriminate| | |].
    + rewrite Hd in Eu. injection Eu as <-. exists h, R. constructor; auto. cbn [c_th]. apply Hdel; auto.
    + cbn in Ec. injection Ec as ->. destruct (w_writer (c_w c) || negb (Nat.eqb (w_readers (c_w c)) 0)); discriminate.
    + cbn in Ec. injection Ec as ->. destruct (w_writer (c_w c)); discriminate.
  - apply place_W in Epl. subst h. destruct Hi as ([Hd|Hd] & _); [|congruence]. rewrite Hd, Hw in Eu. injection Eu as <-. specialize (Hex (ex_intro _ _ eq_refl)). subst R.
    exists None, ∅. constructor; cbn [c_w c_th]; auto using okd_lock. apply Hdel; [intros j Hj; symmetry; apply place_other, Hj|auto|reflexivity].
  - apply place_R in Epl as [Hh HiR]. destruct Hi as (Hd & _). rewrite Hd, Hr, (size_rm R i HiR) in Eu. injection Eu as <-.
    assert (Hn' : h = None). { destruct h; [|reflexivity]. rewrite Hex in HiR by eauto. set_solver. } subst h.
    exists None, (R ∖ {[i]}). constructor; cbn [c_w c_th]; auto using okd_lock.
    + intros [? ?]. discriminate.
    + apply Hdel; [intros j Hj; apply place_rm, Hj|auto|apply place_rm_i].
Qed.
Lemma qinv_step c h R a c' e : qinv (r_c c) (r_calls c) h R -> rstep a c = Some (c', e) -> exists h' R', qinv (r_c c') (r_calls c') h' R'.
Proof.
  intros Hi E. destruct a as [[i cl|i|i|t]|i]; cbn in E.
  - destruct (c_th (r_c c) !! i) eqn:Ei; [discriminate|]. injection E as <- <-. cbn [r_c r_calls]. destruct Hi as [Hw Hr Hex Hok Hth]. exists h, R. constructor; auto; cbn [c_w c_th].
    intros j. destruct (decide (j = i)) as [->|Hne]; [|rewrite !lookup_insert_ne by auto; apply Hth]. rewrite !lookup_insert. specialize (Hth i). rewrite Ei in Hth.
    destruct (r_calls c !! i); [destruct Hth|]. rewrite Hth. apply qat_call, Hok.
  - destruct (c_th (r_c c) !! i) as [[r|f]|] eqn:Ei; try discriminate. destruct (f (c_w (r_c c))) as [w' p'| |] eqn:Ef; try discriminate. injection E as <- <-. cbn [r_c r_calls]. eapply qinv_run; eauto.
  - destruct (c_th (r_c c) !! i) as [[r|f]|] eqn:Ei; try discriminate. injection E as <- <-. cbn [r_c r_calls]. destruct Hi as [Hw Hr Hex Hok Hth]. exists h, R. constructor; auto; cbn [c_w c_th].
    intros j. destruct (decide (j = i)) as [->|Hne]; [|rewrite !lookup_delete_ne by auto; apply Hth]. rewrite !lookup_delete. specialize (Hth i). rewrite Ei in Hth.
    destruct (r_calls c !! i) as [cl|]; [|destruct Hth]. destruct (place h R i); [reflexivity| |]; destruct Hth as (_ & A & b & g & Ec & _); destruct b; discriminate Ec.
  - destruct (w_now (c_w (r_c c)) <=? t); [|discriminate]. injection E as <- <-. cbn [r_c r_calls]. destruct Hi as [Hw Hr Hex Hok Hth]. exists h, R. constructor; [exact Hw|exact Hr|exact Hex|destruct Hok; constructor; auto|].
    intros j. cbn [c_w c_th]. specialize (Hth j). destruct (c_th (r_c c) !! j), (r_calls c !! j); auto.
  - destruct (c_th (r_c c) !! i) as [[r|f]|] eqn:Ei; try discriminate. destruct (r_calls c !! i) as [cl|] eqn:Em; try discriminate.
    destruct (f (c_w (r_c c))) as [w' p'| |] eqn:Ef; try discriminate. destruct (unwind cl (c_w (r_c c))) as [w'|] eqn:Eu; [|discriminate]. injection E as <- <-. cbn [r_c r_calls].
    eapply qinv_unwind; eauto.
Qed.
Lemma qinv_exec w0 s c evs : ready w0 -> rexec s (rstart w0) = Some (c, evs) -> exists h R, qinv (r_c c) (r_calls c) h R.
Proof.
  intros Hr. assert (H0 : exists h R, qinv (r_c (rstart w0)) (r_calls (rstart w0)) h R).
  { exists None, ∅. destruct Hr as [R1 R2 (d & Ed & R3 & R4) R5 R6 R7]. constructor; cbn; auto; [|intros i; rewrite !lookup_empty; reflexivity].
    constructor; eauto. intros d' k l E'. rewrite Ed in E'. injection E' as <-. apply R3. }
  revert H0 evs. generalize (rstart w0). induction s as [|a s IH]; intros c0 H0 evs E; cbn in E; [injection E as <- <-; exact H0|].
  destruct (rstep a c0) as [[c1 e]|] eqn:E1; [|discriminate]. destruct (rexec s c1) as [[c2 es]|] eqn:E2; [|discriminate]. injection E as <- <-.
  destruct H0 as (h & R & H0). eapply IH; [|exact E2]. eapply qinv_step; eauto.
Qed.
(** Whatever calls run at the same time, and whatever panics of theirs are recovered: the only calls that panic are HKeys, HVals,
    HGetAll, and SetRange at a position above 2^48. *)
Theorem C194_only_these_panic w0 s c evs i : ready w0 -> rexec s (rstart w0) = Some (c, evs) -> crashing (r_c c) i ->
  match r_calls c !! i with
  | Some (CHKeys _ | CHVals _ | CHGetAll _) => True
  | Some (CSetRange _ pos _) => 2 ^ 48 < pos
  | _ => False
  end.
Proof.
  intros Hr E Hc. destruct (qinv_exec _ _ _ _ Hr E) as (h & R & Hi). unfold crashing in Hc. destruct (c_th (r_c c) !! i) as [[r|f]|] eqn:Ei; [destruct Hc| |destruct Hc].
  pose proof (qi_th _ _ _ _ Hi i) as Hth. rewrite Ei in Hth. destruct (r_calls c !! i) as [cl|] eqn:Em; [|destruct Hth].
  pose proof (fun Hn => qat_ok _ _ _ _ _ _ _ Hi Ei Em Hn Hc) as Hn. unfold no_crash, max_alloc in Hn. destruct cl; auto; try (destruct (Hn I); fail). lia.
Qed.
Example C194_only_ex : match rexec (take 10 rec_demo) (rstart demo) with
  | Some (c, _) => r_calls c !! 1%nat = Some (CHKeys (bs "h")) /\ crashing (r_c c) 1 /\ r_calls c !! 2%nat = None
  | None => False end.
Proof. vm_compute. auto. Qed.
