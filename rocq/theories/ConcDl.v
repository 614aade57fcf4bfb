(** * ConcDl: writers and the locked readers together, with deadlines, when no two readers of one key overlap
    (proof machinery) *)
From stdpp Require Import relations.
From Verif Require Import Base GoFloat CacheModel CacheSpec CacheAbs CacheMain CacheConc ConcLin.

(** ** the points of a locked reader of key [k], which answers [G] of the value found *)
Definition at6 (r : reply) (p : prog reply) : Prop :=
  exists f, p = Step f /\ forall w, f w = match w_readers w with O => Panic | S n => Go (set_lock w (w_writer w) n) (Ret r) end.
Definition at5 (k : gostr) (r : reply) (p : prog reply) : Prop :=
  exists f q, p = Step f /\ (forall w e, w_exp w = Some e -> f w = Go (set_exp w (delete k e)) q) /\ at6 r q.
Definition at4 (k : gostr) (r : reply) (p : prog reply) : Prop :=
  exists f q, p = Step f /\ (forall w d, w_data w = Some d -> f w = Go (set_data w (delete k d)) q) /\ at5 k r q.
Definition at3 (k : gostr) (G : option gval -> reply) (x : gval) (dl : Z) (p : prog reply) : Prop :=
  exists f q, p = Step f /\ (forall w, f w = Go w (q (w_now w))) /\ forall t, if dl <? t then at4 k (G None) (q t) else at6 (G (Some x)) (q t).
Definition at2 (k : gostr) (G : option gval -> reply) (x : gval) (p : prog reply) : Prop :=
  exists f q, p = Step f /\ (forall w e, w_exp w = Some e -> f w = Go w (q (e !! k))) /\ at6 (G (Some x)) (q None) /\ forall dl, at3 k G x dl (q (Some dl)).
Definition at1 (k : gostr) (G : option gval -> reply) (p : prog reply) : Prop :=
  exists f q, p = Step f /\ (forall w d, w_data w = Some d -> f w = Go w (q (d !! k))) /\ at6 (G None) (q None) /\ forall x, at2 k G x (q (Some x)).
Definition at0 (k : gostr) (G : option gval -> reply) (p : prog reply) : Prop :=
  exists f q, p = Step f /\ (forall w, f w = if w_writer w then Blocked else Go (set_lock w false (S (w_readers w))) q) /\ at1 k G q.

Lemma at0_reader {A} k (F : option gval -> A) (g : A -> reply) : at0 k (fun v => g (F v)) (pmap g (rlocked (pbind (c_get k) (fun v => Ret (F v))))).
Proof.
  assert (H6 : forall a, at6 (g a) (pbind (pbind (Ret a) (fun r => pbind p_runlock (fun _ => Ret r))) (fun x => Ret (g x)))).
  { intros a. eexists. split; [reflexivity|]. intros w. cbn. destruct (w_readers w); reflexivity. }
  eexists _, _. split; [reflexivity|]. split; [intros w; cbn; destruct (w_writer w); reflexivity|].
  set (wrap := fun b : prog (option gval) => pbind (pbind (pbind b (fun v => Ret (F v))) (fun r => pbind p_runlock (fun _ => Ret r))) (fun x => Ret (g x))).
  eexists _, (fun o => wrap (match o with None => Ret None | Some x => pbind (expired k) (fun e => Ret (if e then None else Some x)) end)).
  split; [reflexivity|]. split; [intros w d Hd; cbn; rewrite Hd; reflexivity|]. cbn beta. split; [apply H6|]. intros x.
  eexists _, (fun o => wrap (pbind (match o with None => Ret false | Some dl => pbind p_now (fun t => if dl <? t then pbind (data_delete k) (fun _ => pbind (exp_delete k) (fun _ => Ret true)) else Ret false) end) (fun e : bool => Ret (if e then None else Some x)))).
  split; [reflexivity|]. split; [intros w e He; cbn; rewrite He; reflexivity|]. cbn beta. split; [apply H6|]. intros dl.
  eexists _, (fun t => wrap (pbind (if dl <? t then pbind (data_delete k) (fun _ => pbind (exp_delete k) (fun _ => Ret true)) else Ret false) (fun e : bool => Ret (if e then None else Some x)))).
  split; [reflexivity|]. split; [intros w; reflexivity|]. cbn beta. intros t. destruct (dl <? t); [|apply H6].
  eexists _, _. split; [reflexivity|]. split; [intros w d Hd; cbn; rewrite Hd; reflexivity|].
  eexists _, _. split; [reflexivity|]. split; [intros w e He; cbn; rewrite He; reflexivity|]. apply H6.
Qed.
(** the calls that hold the read lock *)
Definition rkey (c : call) : option gostr := match c with CGet k | CStrLen k | CGetRange k _ _ => Some k | _ => None end.
Lemma rkey_at0 c k : rkey c = Some k -> exists G, at0 k G (call_prog c).
Proof. destruct c; try discriminate; intros [= <-]; eexists; apply at0_reader. Qed.

(** what such a call does alone *)
Lemma at0_eval k G p w d e : at0 k G p -> w_writer w = false -> w_readers w = 0%nat -> w_data w = Some d -> w_exp w = Some e ->
  eval p w = match d !! k with
             | None => Done w (G None)
             | Some x => match e !! k with
                         | None => Done w (G (Some x))
                         | Some dl => if dl <? w_now w then Done (set_exp (set_data w (delete k d)) (delete k e)) (G None) else Done w (G (Some x))
                         end
             end.
Proof.
  assert (H6 : forall r q d e, at6 r q -> eval q (W (Some d) (Some e) (w_heap w) (w_next w) false 1 (w_now w)) = Done (W (Some d) (Some e) (w_heap w) (w_next w) false 0 (w_now w)) r).
  { intros r q d0 e0 (f & -> & Hf). cbn. rewrite Hf. reflexivity. }
  intros (f0 & q0 & -> & H0 & f1 & q1 & -> & H1 & H1n & H1s) Hw Hr Hd He. destruct w as [wd we h n b m t]. cbn in Hw, Hr, Hd, He, H6. subst. cbn [eval]. rewrite H0. cbn [w_writer w_readers set_lock w_data w_exp w_heap w_next w_now eval].
  erewrite H1 by reflexivity. destruct (d !! k) as [x|] eqn:Ex; [|apply H6, H1n]. destruct (H1s x) as (f2 & q2 & -> & H2 & H2n & H2s). cbn [eval]. erewrite H2 by reflexivity. 
  destruct (e !! k) as [dl|] eqn:Ed; [|apply H6, H2n]. destruct (H2s dl) as (f3 & q3 & -> & H3 & H3s). cbn [eval]. rewrite H3. cbn [w_now]. specialize (H3s t). destruct (dl <? t); [|apply H6, H3s].
  unfold set_lock. cbn [w_data w_exp w_heap w_next w_writer w_readers w_now]. destruct H3s as (f4 & q4 & -> & H4 & f5 & q5 & -> & H5 & H6'). cbn [eval]. erewrite H4 by reflexivity. cbn [eval]. erewrite H5 by reflexivity. unfold set_data, set_exp. cbn. apply H6, H6'.
Qed.

Section owned.
(** [owner k]: the only goroutine that reads [k] *)
Variable owner : gostr -> nat.
Definition ocall (j : nat) (c : call) : Prop := wlock c \/ exists k, rkey c = Some k /\ owner k = j.

Inductive stage := S1 | S2 (x : gval) | S3 (x : gval) (dl : Z) | S4 (r : reply) | S5 (r : reply) | S6 (r : reply).
Record rst := Rst { rs_key : gostr; rs_ans : option gval -> reply; rs_at : stage }.
Definition dirty (ins : gmap nat rst) (k : gostr) : Prop :=
  exists G r, ins !! owner k = Some (Rst k G (S4 r)) \/ ins !! owner k = Some (Rst k G (S5 r)).
Definition stage_ok (now : Z) (d : gmap gostr gval) (e : gmap gostr Z) (ds : gmap gostr gval) (es : gmap gostr Z) (k : gostr) (G : option gval -> reply) (st : stage) (p : prog reply) (s : tst) : Prop :=
  match st, s with
  | S1, Called c t0 => t0 <= now /\ at0 k G (call_prog c) /\ at1 k G p
  | S2 x, Called c t0 => t0 <= now /\ at0 k G (call_prog c) /\ at2 k G x p /\ d !! k = Some x
  | S3 x dl, Called c t0 => t0 <= now /\ at0 k G (call_prog c) /\ at3 k G x dl p /\ d !! k = Some x /\ e !! k = Some dl
  | S4 r, Decided r' => r' = r /\ at4 k r p /\ ds !! k = None /\ es !! k = None
  | S5 r, Decided r' => r' = r /\ at5 k r p /\ ds !! k = None /\ es !! k = None /\ d !! k = None
  | S6 r, Decided r' => r' = r /\ at6 r p
  | _, _ => False
  end.
Definition tok (now : Z) d e ds es (j : nat) (p : option (prog reply)) (s : option tst) (x : option rst) : Prop :=
  match p, s, x with
  | None, None, None => True
  | Some p, Some (Called c t0), None => t0 <= now /\ ocall j c /\ p = call_prog c
  | Some p, Some (Decided r), None => p = Ret r
  | Some p, Some s, Some (Rst k G st) => owner k = j /\ stage_ok now d e ds es k G st p s
  | _, _, _ => False
  end.
Record shared (c : conf) (m : gmap nat tst) (ws : world) (ins : gmap nat rst) (d : gmap gostr gval) (e : gmap gostr Z) (ds : gmap gostr gval) (es : gmap gostr Z) : Prop := Shared {
  sh_w : w_writer (c_w c) = false; sh_n : w_readers (c_w c) = size ins;
  sh_d : w_data (c_w c) = Some d; sh_e : w_exp (c_w c) = Some e; sh_ds : w_data ws = Some ds; sh_es : w_exp ws = Some es;
  sh_h : w_heap (c_w c) = w_heap ws; sh_x : w_next (c_w c) = w_next ws;
  sh_same : forall k, dirty ins k \/ (d !! k = ds !! k /\ e !! k = es !! k);
  sh_th : forall j, tok (w_now (c_w c)) d e ds es j (c_th c !! j) (m !! j) (ins !! j) }.
Definition oout (now : Z) (j : nat) (p : option (prog reply)) (s : option tst) : Prop := tok now ∅ ∅ ∅ ∅ j p s None.
Definition oheld (c : conf) (m : gmap nat tst) (last : Z) (ws : world) : Prop :=
  exists h A (b0 b : prog A) g cl t0 wl,
    c_th c !! h = Some (fin b g) /\ m !! h = Some (Called cl t0) /\ call_prog cl = pmap g (locked b0) /\ once b0 /\
    set_now wl 0 = set_now (set_lock ws true 0) 0 /\
    t0 <= w_now wl /\ last <= w_now wl /\ rtc bstep (b0, wl) (b, c_w c) /\
    forall i, i <> h -> oout (w_now (c_w c)) i (c_th c !! i) (m !! i).
Definition osim (c : conf) (m : gmap nat tst) (last : Z) (ws : world) : Prop :=
  last <= w_now (c_w c) /\ ready ws /\ ((exists ins d e ds es, shared c m ws ins d e ds es) \/ oheld c m last ws).

Lemma tok_later n n' d e ds es j p s x : n <= n' -> tok n d e ds es j p s x -> tok n' d e ds es j p s x.
Proof.
  intros Hn. destruct p as [p|], s as [[c t0|r]|], x as [[k G st]|]; cbn; auto; try (intros (A & B & C); split; [lia|auto]; fail);
  destruct st; cbn; try tauto; intros (A & B & C); (split; [exact A|split; [lia|exact C]]).
Qed.
Lemma tok_none n d e ds es d' e' ds' es' j p s : tok n d e ds es j p s None -> tok n d' e' ds' es' j p s None.
Proof. destruct p as [p|], s as [[c t0|r]|]; cbn; auto. Qed.
(** a thread whose key is not touched *)
Lemma tok_frame n d e ds es d' e' ds' es' j p s x k : tok n d e ds es j p s x -> owner k <> j ->
  (forall k', k' <> k -> d' !! k' = d !! k' /\ e' !! k' = e !! k' /\ ds' !! k' = ds !! k' /\ es' !! k' = es !! k') -> tok n d' e' ds' es' j p s x.
Proof.
  intros H Ho Hk. destruct x as [[k' G st]|]; [|eapply tok_none; eauto]. destruct p as [p|], s as [s|]; cbn in *; try (destruct s; contradiction); try contradiction.
  assert (H' : owner k' = j /\ stage_ok n d e ds es k' G st p s) by (destruct s; exact H). destruct H' as [H1 H2]. clear H.
  assert (owner k' = j /\ stage_ok n d' e' ds' es' k' G st p s); [|destruct s; assumption]. split; [exact H1|].
  destruct (Hk k') as (E1 & E2 & E3 & E4); [congruence|]. unfold stage_ok in *. destruct st, s; rewrite ?E1, ?E2, ?E3, ?E4; auto.
Qed.

Definition in_purge (st : stage) : Prop := match st with S4 _ | S5 _ => True | _ => False end.
(** a step of the reader [i] of key [k] *)
Lemma shared_step c m ws ins d e ds es i k G st' w' p' s' ws' d' e' ds' es' :
  shared c m ws ins d e ds es -> owner k = i -> (ins !! i = None \/ exists G0 st0, ins !! i = Some (Rst k G0 st0)) ->
  w_writer w' = false -> w_readers w' = size (<[i := Rst k G st']> ins) -> w_data w' = Some d' -> w_exp w' = Some e' ->
  w_data ws' = Some ds' -> w_exp ws' = Some es' -> w_heap w' = w_heap ws' -> w_next w' = w_next ws' -> w_now w' = w_now (c_w c) ->
  (forall k', k' <> k -> d' !! k' = d !! k' /\ e' !! k' = e !! k' /\ ds' !! k' = ds !! k' /\ es' !! k' = es !! k') ->
  stage_ok (w_now (c_w c)) d' e' ds' es' k G st' p' s' -> (in_purge st' \/ (d' !! k = ds' !! k /\ e' !! k = es' !! k)) ->
  shared (Conf w' (<[i := p']> (c_th c))) (<[i := s']> m) ws' (<[i := Rst k G st']> ins) d' e' ds' es'.
Proof.
  intros [Z1 Z2 Z3 Z4 Z5 Z6 Z7 Z8 Ssame Sth] Ho Hins H1 H2 H3 H4 H5 H6 H7 H8 H9 Hfr Hst Hp. split; cbn [c_w c_th]; auto.
  - intros k'. destruct (decide (k' = k)) as [->|Hk].
    + destruct Hp as [Hp|Hp]; [left|right; exact Hp]. unfold dirty. rewrite Ho, lookup_insert. exists G. destruct st'; try destruct Hp; eauto.
    + destruct (Hfr k' Hk) as (E1 & E2 & E3 & E4). destruct (Ssame k') as [(G1 & r1 & Hd)|Hd]; [left|right; rewrite E1, E2, E3, E4; exact Hd].
      exists G1, r1. destruct (decide (owner k' = i)) as [Hi|Hi]; [|rewrite lookup_insert_ne by auto; exact Hd].
      exfalso. rewrite Hi in Hd. destruct Hins as [Hn|(G0 & st0 & Hn)]; rewrite Hn in Hd; destruct Hd as [Hd|Hd]; congruence.
  - intros j. rewrite H9. destruct (decide (j = i)) as [->|Hj].
    + rewrite !lookup_insert. cbn. destruct s'; auto.
    + rewrite !lookup_insert_ne by auto. eapply tok_frame; [apply Sth| |exact Hfr]. congruence.
Qed.
Lemma ready_lift t w : ready w -> ready (set_now w t).
Proof. intros [H1 H2 H3 H4 H5 H6]. split; auto. Qed.

Lemma osim_step w0 A c m last ws a c' e :
  lin_ok w0 A m (w_now (c_w c)) last ws -> osim c m last ws -> cstep a c = Some (c', e) -> (forall i cl, EInv i cl ∈ e -> ocall i cl) ->
  exists B m' last' ws', lin_ok w0 (A ++ B) m' (w_now (c_w c')) last' ws' /\ observed B = e /\ osim c' m' last' ws'.
Proof.
  intros HA (Hlast & Hready & Hs) E Hin. destruct a as [i cl|i|i|t]; cbn in E.
  - (* call *)
    destruct (c_th c !! i) eqn:Ei; [discriminate|]. injection E as <- <-. cbn [c_w c_th] in *.
    assert (Hw : ocall i cl) by (apply Hin; left).
    destruct Hs as [(ins & d & e & ds & es & [Z1 Z2 Z3 Z4 Z5 Z6 Z7 Z8 Ssame Sth])|(h & X & b0 & b & g & cl' & t0 & wl & E1 & E2 & E3 & E4 & E7 & E8 & E9 & E10 & Ho)].
    + pose proof (Sth i) as Hi. rewrite Ei in Hi. destruct (m !! i) as [[]|] eqn:Em; [destruct Hi|destruct Hi|]. destruct (ins !! i) eqn:EI; [destruct Hi|].
      exists [IEv (EInv i cl)], (<[i := Called cl (w_now (c_w c))]> m), last, ws. split; [apply lo_inv; auto|]. split; [reflexivity|].
      split; [exact Hlast|]. split; [exact Hready|]. left. exists ins, d, e, ds, es. split; auto. cbn [c_w c_th]. intros j.
      destruct (decide (j = i)) as [->|Hj]; [rewrite !lookup_insert, EI; cbn; repeat split; auto; lia|]. rewrite !lookup_insert_ne by auto. apply Sth.
    + assert (Hne : h <> i) by congruence.
      assert (Hm : m !! i = None). { specialize (Ho i (not_eq_sym Hne)). rewrite Ei in Ho. destruct (m !! i) as [[]|]; [destruct Ho|destruct Ho|reflexivity]. }
      exists [IEv (EInv i cl)], (<[i := Called cl (w_now (c_w c))]> m), last, ws. split; [apply lo_inv; auto|]. split; [reflexivity|].
      split; [exact Hlast|]. split; [exact Hready|]. right. exists h, X, b0, b, g, cl', t0, wl. cbn [c_w c_th]. rewrite !lookup_insert_ne by auto.
      repeat (split; [assumption|]). intros j Hj. destruct (decide (j = i)) as [->|Hj']; [rewrite !lookup_insert; cbn; repeat split; auto; lia|]. rewrite !lookup_insert_ne by auto. apply Ho, Hj.
  - (* run *)
    destruct (c_th c !! i) as [[r|f]|] eqn:Ei; try discriminate. destruct (f (c_w c)) as [w' p'| |] eqn:Ef; try discriminate. injection E as <- <-.
    destruct Hs as [(ins & d & e & ds & es & HS)|(h & X & b0 & b & g & cl' & t0 & wl & E1 & E2 & E3 & E4 & E7 & E8 & E9 & E10 & Ho)].
    + pose proof HS as [Z1 Z2 Z3 Z4 Z5 Z6 Z7 Z8 Ssame Sth]. pose proof (Sth i) as Hi. rewrite Ei in Hi.
      assert (Hstep : forall k G st0 st' w1 p1 s1 ws1 d' e' ds' es', ins !! i = Some (Rst k G st0) -> owner k = i -> f (c_w c) = Go w1 p1 -> w_writer w1 = false -> w_readers w1 = w_readers (c_w c) ->
        w_data w1 = Some d' -> w_exp w1 = Some e' -> w_data ws1 = Some ds' -> w_exp ws1 = Some es' -> w_heap w1 = w_heap ws1 -> w_next w1 = w_next ws1 -> w_now w1 = w_now (c_w c) ->
        (forall k', k' <> k -> d' !! k' = d !! k' /\ e' !! k' = e !! k' /\ ds' !! k' = ds !! k' /\ es' !! k' = es !! k') ->
        stage_ok (w_now (c_w c)) d' e' ds' es' k G st' p1 s1 -> (in_purge st' \/ (d' !! k = ds' !! k /\ e' !! k = es' !! k)) ->
        shared (Conf w' (<[i := p']> (c_th c))) (<[i := s1]> m) ws1 (<[i := Rst k G st']> ins) d' e' ds' es' /\ w_now w' = w_now (c_w c)).
      { intros k G st0 st' w1 p1 s1 ws1 d' e' ds' es' HI Hown Hf. rewrite Hf in Ef. injection Ef as <- <-. intros A1 A2 A3 A4 A5 A6 A7 A8 A9 A10 A11 A12.
        split; [|exact A9]. eapply shared_step; eauto. rewrite map_size_insert_Some by eauto. congruence. }
      assert (Hlin : forall k G cl t0 dd ee, at0 k G (call_prog cl) -> m !! i = Some (Called cl t0) -> t0 <= w_now (c_w c) -> w_data ws = Some dd -> w_exp ws = Some ee ->
        forall ws1 r, match dd !! k with None => Done (set_now ws (w_now (c_w c))) (G None)
          | Some x => match ee !! k with None => Done (set_now ws (w_now (c_w c))) (G (Some x))
             | Some dl => if dl <? w_now (c_w c) then Done (set_exp (set_data (set_now ws (w_now (c_w c))) (delete k dd)) (delete k ee)) (G None) else Done (set_now ws (w_now (c_w c))) (G (Some x)) end end = Done ws1 r ->
        lin_ok w0 (A ++ [ILin i (w_now (c_w c)) cl r]) (<[i := Decided r]> m) (w_now (c_w c)) (w_now (c_w c)) ws1 /\ ready ws1).
      { intros k G cl t0 dd ee H0 Em Ht Hd He ws1 r Hr. assert (HR : run_call (w_now (c_w c)) cl ws = Done ws1 r).
        { unfold run_call. rewrite (at0_eval k G _ (set_now ws (w_now (c_w c))) dd ee H0); [exact Hr|apply Hready|apply Hready|exact Hd|exact He]. }
        split; [eapply lo_lin; eauto; lia|]. eapply ready_run; eauto. }
      destruct (ins !! i) as [[k G st]|] eqn:EI.
      * (* a reader inside *)
        destruct (m !! i) as [s|] eqn:Em; [|contradiction].
        assert (Hi' : owner k = i /\ stage_ok (w_now (c_w c)) d e ds es k G st (Step f) s) by (destruct s; exact Hi). clear Hi. destruct Hi' as [Hown Hst].
        assert (Hclean : ~ in_purge st -> d !! k = ds !! k /\ e !! k = es !! k).
        { intros Hnp. destruct (Ssame k) as [(G1 & r1 & Hd)|Hd]; [|exact Hd]. exfalso. apply Hnp. rewrite Hown, EI in Hd. destruct Hd as [Hd|Hd]; injection Hd as _ ->; exact I. }
        assert (Hsame : forall k', k' <> k -> d !! k' = d !! k' /\ e !! k' = e !! k' /\ ds !! k' = ds !! k' /\ es !! k' = es !! k') by auto.
        destruct st as [|x|x dl|r|r|r]; destruct s as [cl t0|r']; try contradiction; cbn [stage_ok] in Hst.
        -- (* the value is loaded *)
           destruct Hst as (Ht0 & H0 & f1 & q1 & [= <-] & H1 & H1n & H1s). specialize (H1 _ _ Z3). destruct (Hclean (fun x => x)) as [C1 C2].
           destruct (d !! k) as [x|] eqn:Ex.
           ++ exists [], m, last, ws. rewrite app_nil_r. destruct (Hstep k G S1 (S2 x) _ _ (Called cl t0) ws d e ds es eq_refl Hown H1) as [HS' Hn]; auto; try (right; split; congruence); try (cbn; repeat split; solve [auto]).
              cbn [c_w]. rewrite Hn. split; [exact HA|]. split; [reflexivity|]. split; [cbn; lia|]. split; [exact Hready|]. left. rewrite (insert_id m) in HS' by exact Em. eauto 10.
           ++ destruct (Hlin k G cl t0 ds es H0 eq_refl Ht0 Z5 Z6 (set_now ws (w_now (c_w c))) (G None)) as [HL HR]; [rewrite <- C1; reflexivity|].
              destruct (Hstep k G S1 (S6 (G None)) _ _ (Decided (G None)) (set_now ws (w_now (c_w c))) d e ds es eq_refl Hown H1) as [HS' Hn]; auto; try (right; split; congruence); try (cbn; repeat split; solve [auto]).
              eexists _, _, _, _. cbn [c_w]. rewrite Hn. split; [exact HL|]. split; [reflexivity|]. split; [cbn; lia|]. split; [exact HR|]. left. eauto 10.
        -- (* the deadline is loaded *)
           destruct Hst as (Ht0 & H0 & (f2 & q2 & [= <-] & H2 & H2n & H2s) & Hx). specialize (H2 _ _ Z4). destruct (Hclean (fun x => x)) as [C1 C2].
           destruct (e !! k) as [dl|] eqn:Ed.
           ++ exists [], m, last, ws. rewrite app_nil_r. destruct (Hstep k G (S2 x) (S3 x dl) _ _ (Called cl t0) ws d e ds es eq_refl Hown H2) as [HS' Hn]; auto; try (right; split; congruence); try (cbn; repeat split; solve [auto]).
              cbn [c_w]. rewrite Hn. split; [exact HA|]. split; [reflexivity|]. split; [cbn; lia|]. split; [exact Hready|]. left. rewrite (insert_id m) in HS' by exact Em. eauto 10.
           ++ destruct (Hlin k G cl t0 ds es H0 eq_refl Ht0 Z5 Z6 (set_now ws (w_now (c_w c))) (G (Some x))) as [HL HR]; [rewrite <- C1, <- C2, Hx; reflexivity|].
              destruct (Hstep k G (S2 x) (S6 (G (Some x))) _ _ (Decided (G (Some x))) (set_now ws (w_now (c_w c))) d e ds es eq_refl Hown H2) as [HS' Hn]; auto; try (right; split; congruence); try (cbn; repeat split; solve [auto]).
              eexists _, _, _, _. cbn [c_w]. rewrite Hn. split; [exact HL|]. split; [reflexivity|]. split; [cbn; lia|]. split; [exact HR|]. left. eauto 10.
        -- (* the clock is read *)
           destruct Hst as (Ht0 & H0 & (f3 & q3 & [= <-] & H3 & H3s) & Hx & Hdl). specialize (H3 (c_w c)). specialize (H3s (w_now (c_w c))). destruct (Hclean (fun x => x)) as [C1 C2].
           destruct (dl <? w_now (c_w c)) eqn:El.
           ++ destruct (Hlin k G cl t0 ds es H0 eq_refl Ht0 Z5 Z6 (set_exp (set_data (set_now ws (w_now (c_w c))) (delete k ds)) (delete k es)) (G None)) as [HL HR]; [rewrite <- C1, <- C2, Hx, Hdl, El; reflexivity|].
              destruct (Hstep k G (S3 x dl) (S4 (G None)) _ _ (Decided (G None)) (set_exp (set_data (set_now ws (w_now (c_w c))) (delete k ds)) (delete k es)) d e (delete k ds) (delete k es) eq_refl Hown H3) as [HS' Hn]; auto.
              { intros k' Hk'. rewrite !lookup_delete_ne by auto. auto. } { cbn. rewrite !lookup_delete. auto. } { left. exact I. }
              eexists _, _, _, _. cbn [c_w]. rewrite Hn. split; [exact HL|]. split; [reflexivity|]. split; [cbn; lia|]. split; [exact HR|]. left. eauto 10.
           ++ destruct (Hlin k G cl t0 ds es H0 eq_refl Ht0 Z5 Z6 (set_now ws (w_now (c_w c))) (G (Some x))) as [HL HR]; [rewrite <- C1, <- C2, Hx, Hdl, El; reflexivity|].
              destruct (Hstep k G (S3 x dl) (S6 (G (Some x))) _ _ (Decided (G (Some x))) (set_now ws (w_now (c_w c))) d e ds es eq_refl Hown H3) as [HS' Hn]; auto; try (right; split; congruence); try (cbn; repeat split; solve [auto]).
              eexists _, _, _, _. cbn [c_w]. rewrite Hn. split; [exact HL|]. split; [reflexivity|]. split; [cbn; lia|]. split; [exact HR|]. left. eauto 10.
        -- (* the value is removed *)
           destruct Hst as (-> & (f4 & q4 & [= <-] & H4 & H4s) & Hn1 & Hn2). specialize (H4 _ _ Z3).
           destruct (Hstep k G (S4 r) (S5 r) _ _ (Decided r) ws (delete k d) e ds es eq_refl Hown H4) as [HS' Hn]; auto.
           { intros k' Hk'. rewrite !lookup_delete_ne by auto. auto. } { cbn. rewrite lookup_delete. auto. } { left. exact I. }
           exists [], m, last, ws. rewrite app_nil_r. cbn [c_w]. rewrite Hn. split; [exact HA|]. split; [reflexivity|]. split; [cbn; lia|]. split; [exact Hready|]. left. rewrite (insert_id m) in HS' by exact Em. eauto 10.
        -- (* the deadline is removed *)
           destruct Hst as (-> & (f5 & q5 & [= <-] & H5 & H5s) & Hn1 & Hn2 & Hn3). specialize (H5 _ _ Z4).
           destruct (Hstep k G (S5 r) (S6 r) _ _ (Decided r) ws d (delete k e) ds es eq_refl Hown H5) as [HS' Hn]; auto.
           { intros k' Hk'. rewrite !lookup_delete_ne by auto. auto. } { cbn. auto. } { right. rewrite lookup_delete. split; congruence. }
           exists [], m, last, ws. rewrite app_nil_r. cbn [c_w]. rewrite Hn. split; [exact HA|]. split; [reflexivity|]. split; [cbn; lia|]. split; [exact Hready|]. left. rewrite (insert_id m) in HS' by exact Em. eauto 10.
        -- (* the lock is released *)
           destruct Hst as (-> & f6 & [= <-] & H6). rewrite H6, Z2 in Ef. assert (Hsz : size ins = S (size (delete i ins))).
           { rewrite <- (insert_delete ins i _ EI) at 1. rewrite map_size_insert_None by apply lookup_delete. reflexivity. }
           rewrite Hsz in Ef. injection Ef as <- <-.
           exists [], m, last, ws. rewrite app_nil_r. cbn [c_w set_lock w_now]. split; [exact HA|]. split; [reflexivity|]. split; [cbn; lia|]. split; [exact Hready|]. left.
           exists (delete i ins), d, e, ds, es. split; auto.
           ++ intros k'. destruct (Ssame k') as [(G1 & r1 & Hd)|Hd]; [left|right; exact Hd]. exists G1, r1.
              destruct (decide (owner k' = i)) as [Hi|Hi]; [|rewrite lookup_delete_ne by auto; exact Hd]. exfalso. rewrite Hi, EI in Hd. destruct Hd as [Hd|Hd]; discriminate.
           ++ intros j. cbn [c_th c_w set_lock w_now]. destruct (decide (j = i)) as [->|Hj]; [rewrite lookup_insert, lookup_delete, Em; reflexivity|].
              rewrite lookup_insert_ne, lookup_delete_ne by auto. apply Sth.
      * (* a goroutine that begins its call *)
        destruct (m !! i) as [[cl t0|r]|] eqn:Em; [|discriminate Hi|destruct Hi]. destruct Hi as (Ht0 & Hoc & Hp). destruct Hoc as [Hw|(k & Hk & Hown)].
        -- pose proof (wlock_step cl (c_w c) Hw) as Hst. rewrite <- Hp, Ef in Hst. destruct Hst as (_ & Hr0 & -> & X & b & g & Hc & Hon & ->).
           assert (ins = ∅) as -> by (apply map_size_empty_iff; congruence).
           assert (Hall : forall k, d !! k = ds !! k /\ e !! k = es !! k).
           { intros k. destruct (Ssame k) as [(G1 & r1 & Hd)|Hd]; [|exact Hd]. rewrite lookup_empty in Hd. destruct Hd; discriminate. }
           assert (d = ds) as <- by (apply map_eq; intros k; apply Hall). assert (e = es) as <- by (apply map_eq; intros k; apply Hall).
           exists [], m, last, ws. rewrite app_nil_r. cbn [c_w c_th set_lock w_now]. split; [exact HA|]. split; [reflexivity|].
           split; [exact Hlast|]. split; [exact Hready|]. right. exists i, X, b, b, g, cl, t0, (set_lock (c_w c) true 0). cbn [c_w c_th]. rewrite lookup_insert.
           split; [reflexivity|]. split; [exact Em|]. split; [rewrite <- Hp; exact Hc|]. split; [exact Hon|].
           split. { unfold set_now, set_lock. cbn. rewrite Z3, Z4, Z5, Z6, Z7, Z8. reflexivity. } split; [exact Ht0|]. split; [exact Hlast|]. split; [constructor|].
           intros j Hj. rewrite lookup_insert_ne by auto. specialize (Sth j). rewrite lookup_empty in Sth. eapply tok_none. exact Sth.
        -- destruct (rkey_at0 _ _ Hk) as (G & Hat). pose proof Hat as (f0 & q0 & Hp0 & H0 & H1). rewrite <- Hp in Hp0. injection Hp0 as <-. rewrite H0, Z1 in Ef. injection Ef as <- <-.
           exists [], m, last, ws. rewrite app_nil_r. cbn [c_w set_lock w_now]. split; [exact HA|]. split; [reflexivity|]. split; [cbn; lia|]. split; [exact Hready|]. left.
           exists (<[i := Rst k G S1]> ins), d, e, ds, es. rewrite <- (insert_id m i (Called cl t0) Em).
           eapply shared_step; eauto; cbn; auto.
           ++ rewrite map_size_insert_None by exact EI. congruence.
           ++ right. destruct (Ssame k) as [(G1 & r1 & Hd)|Hd]; [|exact Hd]. rewrite Hown, EI in Hd. destruct Hd; discriminate.
    + pose proof (once_lock _ _ E10 E4) as (Hob & Hlk & Hrd' & Hnw). cbn [fst snd] in *.
      assert (Hww : w_writer (c_w c) = true). { rewrite Hlk. destruct (same_locks _ _ E7) as [L1 L2]. cbn in L1. congruence. }
      assert (Hrr : w_readers (c_w c) = 0%nat). { rewrite Hrd'. destruct (same_locks _ _ E7) as [L1 L2]. cbn in L2. congruence. }
      destruct (decide (i = h)) as [->|Hne].
      * rewrite Ei in E1. injection E1 as E1. destruct b as [r|fb]; cbn in E1.
        -- (* unlock *)
           injection E1 as ->. rewrite Hww in Ef. injection Ef as <- <-.
           destruct (once_run_ _ _ E10 _ _ eq_refl E4) as (t & Ht & He). cbn [fst snd] in *.
           assert (Hrun : run_call t cl' ws = Done (set_lock (set_now (c_w c) t) false (w_readers (c_w c))) (g r)).
           { unfold run_call. rewrite E3. unfold pmap, locked. rewrite !eval_bind. cbn [eval p_lock atom].
             cbn [w_writer w_readers set_now]. rewrite (ready_writer _ Hready), (ready_readers _ Hready). cbn [orb negb Nat.eqb eval].
             rewrite eval_bind. replace (set_lock (set_now ws t) true 0) with (set_now wl t) by (rewrite (same_set_now _ _ t E7); reflexivity).
             rewrite He. cbn. rewrite Hww. reflexivity. }
           assert (Hr' : ready (set_lock (set_now (c_w c) t) false (w_readers (c_w c)))) by (eapply ready_run; eauto).
           exists [ILin h t cl' (g r)], (<[h := Decided (g r)]> m), t, (set_lock (set_now (c_w c) t) false (w_readers (c_w c))).
           cbn [c_w c_th]. split; [|split; [reflexivity|]].
           ++ eapply lo_lin; eauto; try lia. cbn. lia.
           ++ split; [cbn; lia|]. split; [exact Hr'|]. left. destruct (ready_data _ Hr') as (d & Hd & _). destruct (ready_exp _ Hr') as [e He'].
              exists ∅, d, e, d, e. split; auto. cbn [c_w c_th set_lock w_now]. intros j. rewrite lookup_empty. destruct (decide (j = h)) as [->|Hj]; [rewrite !lookup_insert; reflexivity|].
              rewrite !lookup_insert_ne by auto. eapply tok_none, Ho, Hj.
        -- injection E1 as ->. destruct (fb (c_w c)) as [w1 b1| |] eqn:Efb; cbn in Ef; try discriminate. injection Ef as <- <-.
           assert (Hrtc : rtc bstep (b0, wl) (b1, w1)) by (eapply rtc_r; [exact E10|]; constructor; exact Efb).
           pose proof (once_lock _ _ Hrtc E4) as (_ & Hlk1 & Hrd1 & Hnw1). cbn [fst snd] in *.
           assert (Hnow : w_now w1 = w_now (c_w c)).
           { inversion Hob as [? Ht|f' H1 H2 H3|f' k H1 H2]; subst.
             - inversion Ht as [|f' H1 H2 H3]; subst. eapply H2; eauto.
             - eapply H2; eauto.
             - rewrite H1 in Efb. injection Efb as <- <-. reflexivity. }
           exists [], m, last, ws. rewrite app_nil_r. cbn [c_w c_th]. rewrite Hnow. split; [exact HA|]. split; [reflexivity|].
           split; [cbn; lia|]. split; [exact Hready|]. right.
           exists h, X, b0, b1, g, cl', t0, wl. cbn [c_w c_th]. rewrite lookup_insert. rewrite Hnow.
           split; [reflexivity|]. repeat (split; [assumption|]). intros j Hj. rewrite lookup_insert_ne by auto. apply Ho, Hj.
      * (* another goroutine cannot move *)
        specialize (Ho i Hne). rewrite Ei in Ho. destruct (m !! i) as [[cl t1|r]|]; [|discriminate Ho|destruct Ho].
        destruct Ho as (_ & [Hw|(k & Hk & _)] & Hp).
        -- pose proof (wlock_step cl (c_w c) Hw) as Hst. rewrite <- Hp, Ef in Hst. destruct Hst as [Hst _]. congruence.
        -- destruct (rkey_at0 _ _ Hk) as (G & f0 & q0 & Hp0 & H0 & _). rewrite <- Hp in Hp0. injection Hp0 as <-. rewrite H0, Hww in Ef. discriminate.
  - (* return *)
    destruct (c_th c !! i) as [[r|f]|] eqn:Ei; try discriminate. injection E as <- <-. cbn [c_w c_th] in *.
    assert (Hcall : forall cl, ocall i cl -> call_prog cl <> Ret r).
    { intros cl [Hw|(k & Hk & _)] Hp; [pose proof (wlock_step cl (c_w c) Hw) as Hst; rewrite Hp in Hst; exact Hst|]. destruct (rkey_at0 _ _ Hk) as (G & f0 & q0 & Hp0 & _). congruence. }
    destruct Hs as [(ins & d & e & ds & es & [Z1 Z2 Z3 Z4 Z5 Z6 Z7 Z8 Ssame Sth])|(h & X & b0 & b & g & cl' & t0 & wl & E1 & E2 & E3 & E4 & E7 & E8 & E9 & E10 & Ho)].
    + pose proof (Sth i) as Hi. rewrite Ei in Hi. assert (HI : ins !! i = None /\ m !! i = Some (Decided r)).
      { destruct (m !! i) as [s|]; [|destruct (ins !! i); contradiction]. destruct (ins !! i) as [[k G st]|].
        - exfalso. assert (Hst : stage_ok (w_now (c_w c)) d e ds es k G st (Ret r) s) by (destruct s; apply Hi). destruct st, s; cbn in Hst; try contradiction; unfold at1, at2, at3, at4, at5, at6 in Hst; 
            repeat match goal with H : _ /\ _ |- _ => destruct H | H : exists _, _ |- _ => destruct H end; discriminate.
        - destruct s as [cl t0|r']; [|cbn in Hi; split; congruence]. destruct Hi as (_ & Hoc & Hp). elim (Hcall cl Hoc). auto. }
      destruct HI as [EI Em]. exists [IEv (ERet i r)], (delete i m), last, ws. split; [apply lo_ret; auto|]. split; [reflexivity|].
      split; [exact Hlast|]. split; [exact Hready|]. left. exists ins, d, e, ds, es. split; auto. cbn [c_w c_th]. intros j.
      destruct (decide (j = i)) as [->|Hj]; [rewrite !lookup_delete, EI; exact I|]. rewrite !lookup_delete_ne by auto. apply Sth.
    + assert (Hne : h <> i). { intros ->. rewrite Ei in E1. injection E1 as E1. destruct b; discriminate E1. }
      assert (Em : m !! i = Some (Decided r)).
      { specialize (Ho i (not_eq_sym Hne)). rewrite Ei in Ho. destruct (m !! i) as [[cl t1|r']|]; [|cbn in Ho; congruence|destruct Ho]. destruct Ho as (_ & Hoc & Hp). elim (Hcall cl Hoc). auto. }
      exists [IEv (ERet i r)], (delete i m), last, ws. split; [apply lo_ret; auto|]. split; [reflexivity|].
      split; [exact Hlast|]. split; [exact Hready|]. right. exists h, X, b0, b, g, cl', t0, wl. cbn [c_w c_th]. rewrite !lookup_delete_ne by auto.
      repeat (split; [assumption|]). intros j Hj. destruct (decide (j = i)) as [->|Hj']; [rewrite !lookup_delete; exact I|]. rewrite !lookup_delete_ne by auto. apply Ho, Hj.
  - (* tick *)
    destruct (Z.leb_spec (w_now (c_w c)) t) as [Ht|]; [|discriminate]. injection E as <- <-. cbn [c_w c_th] in *.
    exists [IEv (ETick t)], m, last, ws. cbn [w_now set_now]. split; [eapply lo_tick; eauto|]. split; [reflexivity|].
    split; [cbn; lia|]. split; [exact Hready|]. destruct Hs as [(ins & d & e & ds & es & [Z1 Z2 Z3 Z4 Z5 Z6 Z7 Z8 Ssame Sth])|(h & X & b0 & b & g & cl' & t0 & wl & E1 & E2 & E3 & E4 & E7 & E8 & E9 & E10 & Ho)].
    + left. exists ins, d, e, ds, es. split; auto. cbn [c_w c_th set_now w_now]. intros j. eapply tok_later; [exact Ht|apply Sth].
    + right. exists h, X, b0, b, g, cl', t0, wl. cbn [c_w c_th]. repeat (split; [assumption|]). split; [eapply rtc_r; [exact E10|]; constructor; exact Ht|].
      intros j Hj. eapply tok_later; [exact Ht|apply Ho, Hj].
Qed.

Lemma olin_exec w0 s c evs :
  ready w0 -> (forall i cl, EInv i cl ∈ evs -> ocall i cl) -> cexec s (start w0) = Some (c, evs) ->
  exists A m last ws, lin_ok w0 A m (w_now (c_w c)) last ws /\ observed A = evs /\ osim c m last ws.
Proof.
  intros Hr Hc E.
  refine (cexec_inv (fun c evs => (forall i cl, EInv i cl ∈ evs -> ocall i cl) -> exists A m last ws, lin_ok w0 A m (w_now (c_w c)) last ws /\ observed A = evs /\ osim c m last ws)
    s (start w0) c evs _ [] _ E Hc).
  - intros c1 evs1 a c2 e IH Es Hin. destruct IH as (A & m & last & ws & HA & Hobs & Hsim); [intros i cl Hi; apply Hin, elem_of_app; auto|].
    destruct (osim_step _ _ _ _ _ _ _ _ _ HA Hsim Es) as (B & m' & last' & ws' & HB & HoB & Hsim'); [intros i cl Hi; apply Hin, elem_of_app; auto|].
    exists (A ++ B), m', last', ws'. split; [exact HB|]. split; [rewrite observed_app; congruence|exact Hsim'].
  - intros _. exists [], ∅, (w_now w0), w0. split; [constructor|]. split; [reflexivity|]. split; [cbn; lia|]. split; [exact Hr|]. left.
    destruct (ready_data _ Hr) as (d & Hd & _). destruct (ready_exp _ Hr) as [e He]. exists ∅, d, e, d, e. split; cbn; auto; try apply Hr. intros j. rewrite !lookup_empty. exact I.
Qed.
(** when every call has returned *)
Lemma osim_idle c m last ws : osim c m last ws -> c_th c = ∅ -> m = ∅ /\ same_cache (c_w c) ws.
Proof.
  intros (_ & Hr & [(ins & d & e & ds & es & [Z1 Z2 Z3 Z4 Z5 Z6 Z7 Z8 Ssame Sth])|(h & X & b0 & b & g & cl & t0 & wl & E1 & _)]) He.
  - assert (Hm : forall i, m !! i = None /\ ins !! i = None).
    { intros i. specialize (Sth i). rewrite He, lookup_empty in Sth. destruct (m !! i) as [[]|], (ins !! i); try contradiction; auto. }
    assert (ins = ∅) as -> by (apply map_eq; intros i; rewrite lookup_empty; apply Hm). split; [apply map_eq; intros i; rewrite lookup_empty; apply Hm|].
    assert (Hall : forall k, d !! k = ds !! k /\ e !! k = es !! k).
    { intros k. destruct (Ssame k) as [(G1 & r1 & Hd)|Hd]; [|exact Hd]. rewrite lookup_empty in Hd. destruct Hd; discriminate. }
    assert (d = ds) as <- by (apply map_eq; intros k; apply Hall). assert (e = es) as <- by (apply map_eq; intros k; apply Hall).
    unfold same_cache. destruct Hr as [R1 R2 _ _ _ _]. rewrite map_size_empty in Z2. destruct (c_w c), ws. unfold set_now. cbn in *. congruence.
  - rewrite He, lookup_empty in E1. discriminate.
Qed.
End owned.

(** ** Real time: the decision point of a call lies between its invocation and its return *)
(** the goroutine an event belongs to *)
Definition who (e : event) : option nat := match e with EInv i _ | ERet i _ => Some i | ETick _ => None end.
(** the clock after a history *)
Definition clock (t0 : Z) (evs : list event) : Z := foldl (fun t e => match e with ETick t' => t' | _ => t end) t0 evs.

Lemma lin_clock w0 A m clk last ws : lin_ok w0 A m clk last ws ->
  clk = clock (w_now w0) (observed A) /\ last <= clk /\ Forall (fun tc => fst tc <= clk) (lin_calls A).
Proof.
  unfold clock, observed, lin_calls.
  induction 1 as [|A m clk last ws i c H IH Hm|A m clk last ws t H IH|A m clk last ws i c t0 t ws' r H IH Hm H1 H2 H3 Hr|A m clk last ws i r H IH Hm];
    rewrite ?omap_app; cbn [omap list_omap app]; rewrite ?app_nil_r, ?foldl_app; cbn [foldl].
  - split; [reflexivity|]. split; [lia|constructor].
  - exact IH.
  - destruct IH as (-> & I2 & I3). split; [reflexivity|]. split; [lia|]. eapply List.Forall_impl; [|exact I3]. cbn. intros. lia.
  - destruct IH as (I1 & I2 & I3). split; [exact I1|]. split; [lia|]. apply Forall_app. split; [exact I3|]. repeat constructor. exact H3.
  - exact IH.
Qed.

Lemma snoc_split {A} (l p : list A) (e x : A) q : l ++ [e] = p ++ x :: q ->
  (q = [] /\ l = p /\ e = x) \/ exists q', q = q' ++ [e] /\ l = p ++ x :: q'.
Proof.
  destruct (decide (q = [])) as [->|Hq]; [intros E; left; apply app_inj_tail in E as [-> ->]; auto|].
  destruct (exists_last Hq) as (q' & y & ->). intros E. right. rewrite app_comm_cons, app_assoc in E. apply app_inj_tail in E as [-> ->]. eauto.
Qed.
Lemma observed_ev A e : observed (A ++ [IEv e]) = observed A ++ [e].
Proof. rewrite observed_app. reflexivity. Qed.
Lemma observed_lin A i t c r : observed (A ++ [ILin i t c r]) = observed A.
Proof. rewrite observed_app. apply app_nil_r. Qed.
Lemma lin_call w0 A m clk last ws i c p1 : lin_ok w0 A m clk last ws -> forall p2,
  observed A = p1 ++ EInv i c :: p2 -> Forall (fun e => who e <> Some i) p2 ->
  m !! i = Some (Called c (clock (w_now w0) p1)) \/
  exists A1 t r A2 q q', m !! i = Some (Decided r) /\ A = A1 ++ ILin i t c r :: A2 /\ clock (w_now w0) p1 <= t /\ observed A1 = p1 ++ EInv i c :: q /\ p2 = q ++ q'.
Proof.
  induction 1 as [|A m clk last ws j cj H IH Hm|A m clk last ws t H IH|A m clk last ws j cj t0 t ws' r H IH Hm H1 H2 H3 Hr|A m clk last ws j r H IH Hm]; intros p2 Ho Hp.
  - cbn in Ho. destruct p1; discriminate.
  - rewrite observed_ev in Ho. apply snoc_split in Ho as [(-> & Ho & E)|(q & -> & Ho)].
    + injection E as -> ->. left. rewrite lookup_insert. rewrite <- Ho. do 2 f_equal. apply (lin_clock _ _ _ _ _ _ H).
    + apply Forall_app in Hp as [Hp He]. inversion_clear He as [|? ? He' _]. cbn in He'. rewrite lookup_insert_ne by congruence.
      destruct (IH q Ho Hp) as [IH'|(A1 & t & r & A2 & q1 & q2 & I1 & -> & I3 & I4 & ->)]; [left; exact IH'|right]. exists A1, t, r, (A2 ++ [IEv (EInv j cj)]), q1, (q2 ++ [EInv j cj]).
      rewrite <- !app_assoc. auto.
  - rewrite observed_ev in Ho. apply snoc_split in Ho as [(-> & Ho & E)|(q & -> & Ho)]; [discriminate|].
    apply Forall_app in Hp as [Hp He]. destruct (IH q Ho Hp) as [IH'|(A1 & t' & r & A2 & q1 & q2 & I1 & -> & I3 & I4 & ->)]; [left; exact IH'|right].
    exists A1, t', r, (A2 ++ [IEv (ETick t)]), q1, (q2 ++ [ETick t]). rewrite <- !app_assoc. auto.
  - rewrite observed_lin in Ho. destruct (decide (j = i)) as [->|Hj].
    + rewrite lookup_insert. destruct (IH p2 Ho Hp) as [IH'|(A1 & t' & r' & A2 & q1 & q2 & I1 & _)]; [|congruence]. rewrite Hm in IH'. injection IH' as -> ->.
      right. exists A, t, r, [], p2, []. rewrite app_nil_r. auto.
    + rewrite lookup_insert_ne by auto. destruct (IH p2 Ho Hp) as [IH'|(A1 & t' & r' & A2 & q1 & q2 & I1 & -> & I3 & I4 & ->)]; [left; exact IH'|right].
      exists A1, t', r', (A2 ++ [ILin j t cj r]), q1, q2. rewrite <- !app_assoc. auto.
  - rewrite observed_ev in Ho. apply snoc_split in Ho as [(-> & Ho & E)|(q & -> & Ho)]; [discriminate|].
    apply Forall_app in Hp as [Hp He]. inversion_clear He as [|? ? He' _]. cbn in He'. rewrite lookup_delete_ne by congruence.
    destruct (IH q Ho Hp) as [IH'|(A1 & t' & r' & A2 & q1 & q2 & I1 & -> & I3 & I4 & ->)]; [left; exact IH'|right].
    exists A1, t', r', (A2 ++ [IEv (ERet j r)]), q1, (q2 ++ [ERet j r]). rewrite <- !app_assoc. auto.
Qed.
Lemma lin_between w0 A m clk last ws i c p1 p2 r : lin_ok w0 A m clk last ws -> forall p3,
  observed A = p1 ++ EInv i c :: p2 ++ ERet i r :: p3 -> Forall (fun e => who e <> Some i) p2 ->
  exists A1 t A2 q q', A = A1 ++ ILin i t c r :: A2 /\ clock (w_now w0) p1 <= t /\ observed A1 = p1 ++ EInv i c :: q /\ p2 = q ++ q'.
Proof.
  intros H p3 Ho Hp. revert p3 Ho.
  induction H as [|A m clk last ws j cj H IH Hm|A m clk last ws t H IH|A m clk last ws j cj t0 t ws' r' H IH Hm H1 H2 H3 Hr|A m clk last ws j r' H IH Hm]; intros p3 Ho.
  - cbn in Ho. destruct p1; discriminate.
  - rewrite observed_ev, app_comm_cons, app_assoc in Ho. apply snoc_split in Ho as [(-> & Ho & E)|(q & -> & Ho)]; [discriminate|]. rewrite <- app_assoc in Ho.
    destruct (IH q Ho) as (A1 & t' & A2 & q1 & q2 & -> & I). exists A1, t', (A2 ++ [IEv (EInv j cj)]), q1, q2. rewrite <- app_assoc. auto.
  - rewrite observed_ev, app_comm_cons, app_assoc in Ho. apply snoc_split in Ho as [(-> & Ho & E)|(q & -> & Ho)]; [discriminate|]. rewrite <- app_assoc in Ho.
    destruct (IH q Ho) as (A1 & t' & A2 & q1 & q2 & -> & I). exists A1, t', (A2 ++ [IEv (ETick t)]), q1, q2. rewrite <- app_assoc. auto.
  - rewrite observed_lin in Ho. destruct (IH p3 Ho) as (A1 & t' & A2 & q1 & q2 & -> & I). exists A1, t', (A2 ++ [ILin j t cj r']), q1, q2. rewrite <- app_assoc. auto.
  - rewrite observed_ev, app_comm_cons, app_assoc in Ho. apply snoc_split in Ho as [(-> & Ho & E)|(q & -> & Ho)].
    + injection E as -> ->. destruct (lin_call _ _ _ _ _ _ _ _ _ H _ Ho Hp) as [I|(A1 & t & r'' & A2 & q1 & q2 & I1 & -> & I)]; [congruence|]. rewrite Hm in I1. injection I1 as <-.
      exists A1, t, (A2 ++ [IEv (ERet i r)]), q1, q2. rewrite <- app_assoc. auto.
    + rewrite <- app_assoc in Ho. destruct (IH q Ho) as (A1 & t' & A2 & q1 & q2 & -> & I). exists A1, t', (A2 ++ [IEv (ERet j r')]), q1, q2. rewrite <- app_assoc. auto.
Qed.
(** a call that returned before another was issued is decided before it *)
Lemma lin_order w0 A m clk last ws i c r j c' r' p1 p2 p3 p4 p5 : lin_ok w0 A m clk last ws ->
  observed A = p1 ++ EInv i c :: p2 ++ ERet i r :: p3 ++ EInv j c' :: p4 ++ ERet j r' :: p5 ->
  Forall (fun e => who e <> Some i) p2 -> Forall (fun e => who e <> Some j) p4 ->
  exists A1 t A2 t' A3, A = A1 ++ ILin i t c r :: A2 ++ ILin j t' c' r' :: A3 /\ clock (w_now w0) p1 <= t /\
    clock (w_now w0) (p1 ++ EInv i c :: p2 ++ ERet i r :: p3) <= t'.
Proof.
  intros H Ho H2 H4. destruct (lin_between _ _ _ _ _ _ _ _ _ _ _ H _ Ho H2) as (A1 & t & A2 & q1 & q2 & EA & Ht & Ho1 & ->).
  replace (p1 ++ EInv i c :: (q1 ++ q2) ++ ERet i r :: p3 ++ EInv j c' :: p4 ++ ERet j r' :: p5)
    with ((p1 ++ EInv i c :: (q1 ++ q2) ++ ERet i r :: p3) ++ EInv j c' :: p4 ++ ERet j r' :: p5) in Ho by (repeat (rewrite <- app_assoc; cbn [app]); reflexivity).
  destruct (lin_between _ _ _ _ _ _ _ _ _ _ _ H _ Ho H4) as (B1 & t' & B2 & q3 & q4 & EB & Ht' & Ho2 & ->).
  assert (HL : (length (observed A1) < length (observed B1))%nat). { rewrite Ho1, Ho2. repeat (rewrite app_length; cbn [length]). lia. }
  rewrite EA in EB. apply app_eq_app in EB as (k & [[-> Ek]|[-> Ek]]).
  - rewrite observed_app, app_length in HL. lia.
  - destruct k as [|x k]; [rewrite app_nil_r in HL; lia|]. injection Ek as <- ->. exists A1, t, k, t', B2. auto.
Qed.
