(** * Props_Laws: laws that relate calls to each other (single caller) *)
From Verif Require Import Base GoFloat CacheModel CacheSpec.
From Verif Require Import CacheAbs CacheRefine CacheRefineH CacheMain CacheLib Props_String Props_String2 Props_Db.

(** ** C160: histories on different keys commute *)
(** all keys the call names satisfy [P], and it is not a call on the whole cache *)
Definition names_in (P : gostr -> Prop) (c : call) : Prop := match keys_of c with Some ks => Forall P ks | None => False end.
(** the part of a list of tagged items with tag [b] *)
Fixpoint side {A} (b : bool) (l : list (bool * A)) : list A :=
  match l with [] => [] | (b', x) :: r => if Bool.eqb b b' then x :: side b r else side b r end.
(** [h] tagged: the calls of one side name keys in [P] only, those of the other side no key in [P] *)
Definition split_by (P : gostr -> Prop) (h : list (bool * (Z * call))) : Prop :=
  Forall (fun x => names_in (fun k => if fst x : bool then P k else ~ P k) (snd (snd x))) h.

Lemma a_mset_on (P : gostr -> Prop) kv : forall V1 V2 : views, Forall P (map fst kv) -> (forall k, P k -> V1 k = V2 k) -> forall k, P k -> a_mset kv V1 k = a_mset kv V2 k.
Proof.
  induction kv as [|[k0 v] r IH]; intros V1 V2 Hf Hv k Hk; cbn [a_mset]; [auto|]. inversion_clear Hf as [|? ? H1 H2]. apply IH; auto.
  intros k' Hk'. unfold upd. destruct (decide _); [rewrite Hv; auto|auto].
Qed.
Lemma a_msetnx_on (P : gostr -> Prop) kv : forall n (V1 V2 : views), Forall P (map fst kv) -> (forall k, P k -> V1 k = V2 k) ->
  snd (a_msetnx kv n V1) = snd (a_msetnx kv n V2) /\ forall k, P k -> fst (a_msetnx kv n V1) k = fst (a_msetnx kv n V2) k.
Proof.
  induction kv as [|[k0 v] r IH]; intros n V1 V2 Hf Hv; cbn [a_msetnx]; [auto|]. inversion_clear Hf as [|? ? H1 H2]. rewrite (Hv k0) by auto.
  destruct (fst (V2 k0)); apply IH; auto. intros k' Hk'. unfold upd. destruct (decide _); auto.
Qed.
Lemma a_mget_on (P : gostr -> Prop) t ks : forall V1 V2 : views, Forall P ks -> (forall k, P k -> V1 k = V2 k) ->
  snd (a_mget t ks V1) = snd (a_mget t ks V2) /\ forall k, P k -> fst (a_mget t ks V1) k = fst (a_mget t ks V2) k.
Proof.
  induction ks as [|k0 r IH]; intros V1 V2 Hf Hv; cbn [a_mget]; [auto|]. inversion_clear Hf as [|? ? H1 H2]. rewrite (Hv k0) by auto.
  destruct (IH (upd V1 k0 (purge t (V2 k0))) (upd V2 k0 (purge t (V2 k0))) H2) as [A B].
  { intros k' Hk'. unfold upd. destruct (decide _); auto. }
  destruct (a_mget t r (upd V1 _ _)), (a_mget t r (upd V2 _ _)). cbn in *. split; [congruence|auto].
Qed.
Lemma a_exists_on (P : gostr -> Prop) ks : forall n (V1 V2 : views), Forall P ks -> (forall k, P k -> V1 k = V2 k) -> a_exists ks n V1 = a_exists ks n V2.
Proof. induction ks as [|k0 r IH]; intros n V1 V2 Hf Hv; cbn [a_exists]; [auto|]. inversion_clear Hf. rewrite (Hv k0) by auto. auto. Qed.
Lemma abs_on (P : gostr -> Prop) c t V1 V2 : names_in P c -> (forall k, P k -> V1 k = V2 k) ->
  match abs c t V1, abs c t V2 with
  | Some (A, r), Some (B, r') => r = r' /\ forall k, P k -> A k = B k
  | None, None => True
  | _, _ => False
  end.
Proof.
  intros Ho E. destruct (single_cases c) as [[k0 Hk]|Hc].
  - rewrite !(abs_single c k0) by auto. assert (Hp : P k0).
    { unfold names_in in Ho. destruct c; cbn [single keys_of] in *; try discriminate; injection Hk as ->; inversion_clear Ho; auto. }
    rewrite (E k0 Hp). destruct (abs1 c t (V2 k0)) as [[x r]|]; [|exact I]. split; [reflexivity|]. intros k Hk'. unfold upd. destruct (decide _); auto.
  - unfold names_in in Ho. destruct c; try destruct Hc; cbn [keys_of abs] in *; try contradiction.
    + split; [reflexivity|]. apply a_mset_on; auto.
    + destruct (a_msetnx_on P kv 0 V1 V2 Ho E) as [A B]. destruct (a_msetnx kv 0 V1), (a_msetnx kv 0 V2). cbn in *. split; [congruence|auto].
    + destruct (a_mget_on P t ks V1 V2 Ho E) as [A B]. destruct (a_mget t ks V1), (a_mget t ks V2). cbn in *. split; [congruence|auto].
    + rewrite (a_exists_on P ks 0 V1 V2) by auto. auto.
Qed.
Definition agrees (P : gostr -> Prop) (w u : world) : Prop := forall k, P k -> view w k = view u k.
(** one call seen from both sides *)
Lemma call_on (P : gostr -> Prop) c t w w' r u : ready w -> ready u -> names_in P c -> agrees P w u -> run_call t c w = Done w' r ->
  exists u', run_call t c u = Done u' r /\ ready u' /\ agrees P w' u'.
Proof.
  intros Rw Ru Hn Ha E. destruct (run_inv _ _ _ _ _ Rw E) as (V & Hx & Rw' & Vw). pose proof (abs_on P c t _ _ Hn Ha) as H. rewrite Hx in H.
  destruct (abs c t (view u)) as [[V2 r2]|] eqn:Eu; [|contradiction]. destruct H as [<- H].
  destruct (run_intro _ _ _ _ _ Ru Eu) as (u' & E' & Ru' & Vu). exists u'. split; [auto|]. split; [auto|]. intros k Hk. rewrite Vw, Vu. auto.
Qed.
Lemma call_off (P : gostr -> Prop) c t w w' r : ready w -> (forall k, P k -> ~ names c k) -> run_call t c w = Done w' r -> agrees P w' w.
Proof. intros Rw Hn E. destruct (run_inv _ _ _ _ _ Rw E) as (V & Hx & Rw' & Vw). intros k Hk. rewrite Vw. eapply abs_ne; eauto. Qed.

Definition oside (P : gostr -> Prop) (b : bool) (k : gostr) : Prop := if b then P k else ~ P k.
Lemma oside_off (P : gostr -> Prop) b c k : names_in (oside P b) c -> oside P (negb b) k -> ~ names c k.
Proof.
  unfold names_in, names. destruct (keys_of c) as [ks|]; [|intros []]. intros Hf Hk Hi. rewrite Forall_forall in Hf. apply elem_of_list_In in Hi. specialize (Hf _ Hi). destruct b; cbn in *; tauto.
Qed.
Lemma hist_apart (P : gostr -> Prop) b h : forall w w' rs u, split_by P h -> ready w -> ready u -> agrees (oside P b) w u -> run_hist (map snd h) w = Done w' rs ->
  exists u', run_hist (side b h) u = Done u' (side b (combine (map fst h) rs)) /\ ready w' /\ ready u' /\ agrees (oside P b) w' u'.
Proof.
  induction h as [|[b' [t c]] h IH]; intros w w' rs u Hs Rw Ru Ha.
  - cbn. intros [= <- <-]. eauto.
  - cbn [map snd run_hist]. inversion_clear Hs as [|? ? H1 H2]. cbn [fst snd] in H1. destruct (run_call t c w) as [w1 r| |] eqn:E; [|discriminate|discriminate].
    destruct (run_hist (map snd h) w1) as [w2 rs2| |] eqn:E2; [|discriminate|discriminate]. intros [= <- <-]. cbn [map fst combine side].
    pose proof (ready_run _ _ _ _ _ Rw E) as R1. destruct (Bool.eqb b b') eqn:Eb.
    + apply eqb_prop in Eb as <-. destruct (call_on (oside P b) c t w w1 r u Rw Ru H1 Ha E) as (u1 & Eu & Ru1 & Ha1).
      destruct (IH w1 w2 rs2 u1 H2 R1 Ru1 Ha1 E2) as (u' & Eh & X). exists u'. split; [|exact X]. cbn [run_hist]. rewrite Eu, Eh. reflexivity.
    + apply eqb_false_iff in Eb. assert (b = negb b') as -> by (destruct b, b'; auto; congruence).
      apply (IH w1 w2 rs2 u H2 R1 Ru); [|exact E2]. intros k Hk. rewrite <- (Ha k Hk). eapply call_off; eauto. intros k' Hk'. eapply oside_off; eauto.
Qed.
Lemma hist_together (P : gostr -> Prop) h : forall w u v u' v' ru rv, split_by P h -> ready w -> ready u -> ready v -> agrees (oside P true) u w -> agrees (oside P false) v w ->
  run_hist (side true h) u = Done u' ru -> run_hist (side false h) v = Done v' rv -> exists w' rs, run_hist (map snd h) w = Done w' rs.
Proof.
  induction h as [|[b [t c]] h IH]; intros w u v u' v' ru rv Hs Rw Ru Rv Hu Hv Eu Ev; [cbn; eauto|].
  inversion_clear Hs as [|? ? H1 H2]. cbn [fst snd] in H1. destruct b; cbn [side Bool.eqb] in Eu, Ev.
  - cbn [run_hist] in Eu. destruct (run_call t c u) as [u1 r| |] eqn:E; [|discriminate|discriminate]. destruct (run_hist (side true h) u1) as [u2 r2| |] eqn:E2; [|discriminate|discriminate].
    destruct (call_on (oside P true) c t u u1 r w Ru Rw H1 Hu E) as (w1 & Ew & Rw1 & Hu1).
    assert (Hv1 : agrees (oside P false) v w1).
    { intros k Hk. rewrite (Hv k Hk). symmetry. eapply call_off; [exact Rw| |exact Ew|exact Hk]. intros k' Hk'. exact (oside_off P true c k' H1 Hk'). }
    destruct (IH w1 u1 v _ _ _ _ H2 Rw1 (ready_run _ _ _ _ _ Ru E) Rv Hu1 Hv1 E2 Ev) as (w' & rs & E3).
    cbn [map snd run_hist]. rewrite Ew, E3. eauto.
  - cbn [run_hist] in Ev. destruct (run_call t c v) as [u1 r| |] eqn:E; [|discriminate|discriminate]. destruct (run_hist (side false h) u1) as [u2 r2| |] eqn:E2; [|discriminate|discriminate].
    destruct (call_on (oside P false) c t v u1 r w Rv Rw H1 Hv E) as (w1 & Ew & Rw1 & Hu1).
    assert (Hv1 : agrees (oside P true) u w1).
    { intros k Hk. rewrite (Hu k Hk). symmetry. eapply call_off; [exact Rw| |exact Ew|exact Hk]. intros k' Hk'. exact (oside_off P false c k' H1 Hk'). }
    destruct (IH w1 u u1 _ _ _ _ H2 Rw1 Ru (ready_run _ _ _ _ _ Rv E) Hv1 Hu1 Eu E2) as (w' & rs & E3).
    cbn [map snd run_hist]. rewrite Ew, E3. eauto.
Qed.

(** each side gets the replies it gets alone *)
Theorem C160_alone P h w w' rs b : ready w -> split_by P h -> run_hist (map snd h) w = Done w' rs ->
  exists w1, run_hist (side b h) w = Done w1 (side b (combine (map fst h) rs)).
Proof.
  intros Rw Hs E. destruct (hist_apart P b h w w' rs w Hs Rw Rw (fun k _ => eq_refl) E) as (u & H & _). eauto.
Qed.
(** and in whatever way the two sides are interleaved, the replies are the same and nobody can tell the caches apart *)
Theorem C160_any_interleaving P h h' w w' rs : (forall k, P k \/ ~ P k) -> ready w -> split_by P h -> split_by P h' ->
  (forall b, side b h' = side b h) -> run_hist (map snd h) w = Done w' rs ->
  exists w'' rs', run_hist (map snd h') w = Done w'' rs' /\ indist w'' w' /\
    forall b, side b (combine (map fst h') rs') = side b (combine (map fst h) rs).
Proof.
  intros Hd Rw Hs Hs' He E.
  destruct (hist_apart P true h w w' rs w Hs Rw Rw (fun k _ => eq_refl) E) as (u & Hu & Rw' & Ru & Au).
  destruct (hist_apart P false h w w' rs w Hs Rw Rw (fun k _ => eq_refl) E) as (v & Hv & _ & Rv & Av).
  assert (Hu' := Hu). assert (Hv' := Hv). rewrite <- He in Hu', Hv'.
  destruct (hist_together P h' w w w _ _ _ _ Hs' Rw Rw Rw (fun k _ => eq_refl) (fun k _ => eq_refl) Hu' Hv') as (w2 & rs2 & E2).
  destruct (hist_apart P true h' w w2 rs2 w Hs' Rw Rw (fun k _ => eq_refl) E2) as (u2 & Hu2 & Rw2 & Ru2 & Au2).
  destruct (hist_apart P false h' w w2 rs2 w Hs' Rw Rw (fun k _ => eq_refl) E2) as (v2 & Hv2 & _ & Rv2 & Av2).
  rewrite Hu' in Hu2. rewrite Hv' in Hv2. injection Hu2 as <- Hu2. injection Hv2 as <- Hv2.
  exists w2, rs2. split; [auto|]. split; [|intros []; auto].
  apply indist_of_view; auto. intros k. destruct (Hd k) as [Hk|Hk]; [rewrite (Au2 k Hk), (Au k Hk)|rewrite (Av2 k Hk), (Av k Hk)]; reflexivity.
Qed.
(** in particular two calls *)
Theorem C160_two_calls w t1 c1 t2 c2 w' r1 r2 ks1 ks2 : ready w -> keys_of c1 = Some ks1 -> keys_of c2 = Some ks2 -> (forall k, In k ks1 -> ~ In k ks2) ->
  run_hist [(t1, c1); (t2, c2)] w = Done w' [r1; r2] ->
  exists w'', run_hist [(t2, c2); (t1, c1)] w = Done w'' [r2; r1] /\ indist w'' w'.
Proof.
  intros Rw K1 K2 Hd E. set (P := fun k => In k ks1).
  assert (N1 : names_in P c1) by (unfold names_in; rewrite K1; apply Forall_forall; auto).
  assert (N2 : names_in (fun k => ~ P k) c2) by (unfold names_in; rewrite K2; apply Forall_forall; intros k Hk Hp; exact (Hd _ Hp Hk)).
  destruct (C160_any_interleaving P [(true, (t1, c1)); (false, (t2, c2))] [(false, (t2, c2)); (true, (t1, c1))] w w' [r1; r2]) as (w2 & rs & E2 & Hi & Hb); auto.
  - intros k. destruct (in_dec (fun a b : gostr => decide (a = b)) k ks1); auto.
  - repeat constructor; auto.
  - repeat constructor; auto.
  - intros []; reflexivity.
  - exists w2. split; [|exact Hi]. cbn [map snd] in E2. rewrite E2. f_equal.
    pose proof (Hb true) as Ht. pose proof (Hb false) as Hf. cbn in Ht, Hf.
    cbn [run_hist] in E2. destruct (run_call t2 c2 w) as [a x| |]; try discriminate. destruct (run_call t1 c1 a) as [a' x'| |]; try discriminate. injection E2 as _ <-. cbn in Ht, Hf. congruence.
Qed.

(** ** Two ways to say the same thing

    [same_at w h1 h2]: on the cache [w] the calls of [h1] and those of [h2] end with the same reply and leave caches nobody can
    tell apart, or both panic. [same_after]: the same without looking at the replies. *)
Definition same_at (w : world) (h1 h2 : list (Z * call)) : Prop :=
  match run_hist h1 w, run_hist h2 w with
  | Done a rs, Done b rs' => List.last rs RUnit = List.last rs' RUnit /\ indist a b
  | EPanic, EPanic => True
  | _, _ => False
  end.
Definition same_after (w : world) (h1 h2 : list (Z * call)) : Prop :=
  match run_hist h1 w, run_hist h2 w with
  | Done a _, Done b _ => indist a b
  | EPanic, EPanic => True
  | _, _ => False
  end.
Fixpoint ahist (h : list (Z * call)) (v : kview) : option (kview * list reply) :=
  match h with
  | [] => Some (v, [])
  | (t, c) :: r => match abs1 c t v with
                   | Some (x, y) => match ahist r x with Some (z, ys) => Some (z, y :: ys) | None => None end
                   | None => None
                   end
  end.
Lemma run_ahist h k : forall w, ready w -> all_calls (fun _ c => single c = Some k) h ->
  match ahist h (view w k) with
  | Some (z, ys) => exists w', run_hist h w = Done w' ys /\ ready w' /\ view w' k = z /\ forall k', k' <> k -> view w' k' = view w k'
  | None => run_hist h w = EPanic
  end.
Proof.
  induction h as [|[t c] h IH]; intros w Rw Hs; cbn [ahist run_hist]; [eauto 6|]. inversion_clear Hs as [|? ? H1 H2]. cbn in H1.
  destruct (abs1 c t (view w k)) as [[x y]|] eqn:Ea.
  - destruct (run_single_ex c k t w x y Rw H1 Ea) as (w1 & E & R1 & V1 & O1). specialize (IH w1 R1 H2). rewrite V1 in IH. rewrite E.
    destruct (ahist h x) as [[z ys]|].
    + destruct IH as (w2 & E2 & R2 & V2 & O2). rewrite E2. exists w2. split; [reflexivity|]. split; [auto|]. split; [auto|]. intros k' Hk'. rewrite O2, O1; auto.
    + rewrite IH. reflexivity.
  - rewrite (run_panic c t w Rw); [reflexivity|]. rewrite (abs_single c k t _ H1), Ea. reflexivity.
Qed.
Lemma same_at_of h1 h2 k w : ready w -> all_calls (fun _ c => single c = Some k) h1 -> all_calls (fun _ c => single c = Some k) h2 ->
  match ahist h1 (view w k), ahist h2 (view w k) with
  | Some (a, rs), Some (b, rs') => List.last rs RUnit = List.last rs' RUnit /\ a = b
  | None, None => True
  | _, _ => False
  end -> same_at w h1 h2.
Proof.
  intros Rw A1 A2 H. pose proof (run_ahist h1 k w Rw A1) as X1. pose proof (run_ahist h2 k w Rw A2) as X2. unfold same_at.
  destruct (ahist h1 (view w k)) as [[a rs]|], (ahist h2 (view w k)) as [[b rs']|]; try contradiction.
  - destruct X1 as (w1 & -> & R1 & V1 & O1), X2 as (w2 & -> & R2 & V2 & O2). destruct H as [H ->]. split; [exact H|].
    apply indist_of_view; auto. intros k'. destruct (decide (k' = k)) as [->|Hk]; [congruence|]. rewrite O1, O2; auto.
  - rewrite X1, X2. exact I.
Qed.
Lemma same_after_of h1 h2 k w : ready w -> all_calls (fun _ c => single c = Some k) h1 -> all_calls (fun _ c => single c = Some k) h2 ->
  match ahist h1 (view w k), ahist h2 (view w k) with
  | Some (a, rs), Some (b, rs') => a = b
  | None, None => True
  | _, _ => False
  end -> same_after w h1 h2.
Proof.
  intros Rw A1 A2 H. pose proof (run_ahist h1 k w Rw A1) as X1. pose proof (run_ahist h2 k w Rw A2) as X2. unfold same_after.
  destruct (ahist h1 (view w k)) as [[a rs]|], (ahist h2 (view w k)) as [[b rs']|]; try contradiction.
  - destruct X1 as (w1 & -> & R1 & V1 & O1), X2 as (w2 & -> & R2 & V2 & O2). subst b.
    apply indist_of_view; auto. intros k'. destruct (decide (k' = k)) as [->|Hk]; [congruence|]. rewrite O1, O2; auto.
  - rewrite X1, X2. exact I.
Qed.

(** ** C161: SetEX, PSetEX and Del make the past of a key unobservable *)
Lemma ahist_app h1 h2 v : ahist (h1 ++ h2) v = match ahist h1 v with Some (x, r1) => match ahist h2 x with Some (y, r2) => Some (y, r1 ++ r2) | None => None end | None => None end.
Proof.
  revert v. induction h1 as [|[t c] h1 IH]; intros v; cbn [ahist app]; [destruct (ahist h2 v) as [[]|]; reflexivity|].
  destruct (abs1 c t v) as [[x y]|]; [|reflexivity]. rewrite IH. destruct (ahist h1 x) as [[x1 r1]|]; [|reflexivity]. destruct (ahist h2 x1) as [[]|]; reflexivity.
Qed.
Definition forgets (c : call) (k : gostr) : Prop := match c with CSetEX k' _ _ | CPSetEX k' _ _ | CDel k' => k' = k | _ => False end.
Theorem C161_past_forgotten w w1 rs h k t c : ready w -> all_calls (fun _ c => names_in (fun k' => k' = k) c) h -> forgets c k ->
  run_hist h w = Done w1 rs -> exists w2 r w3 r', run_call t c w1 = Done w2 r /\ run_call t c w = Done w3 r' /\ indist w2 w3 /\
    (match c with CDel _ => True | _ => r = r' end).
Proof.
  intros Rw Hh Hc E. assert (Hs : single c = Some k) by (destruct c; cbn in Hc; try contradiction; subst; reflexivity).
  assert (R1 : ready w1) by (eapply ready_hist; eauto).
  assert (Ho : forall k', k' <> k -> view w1 k' = view w k').
  { intros k' Hk. eapply hist_ne; eauto. eapply Forall_impl; [|exact Hh]. intros [t0 c0] Hn. cbn in *. unfold names_in, names in *.
    destruct (keys_of c0) as [ks|]; [|contradiction]. intros Hi. rewrite Forall_forall in Hn. apply elem_of_list_In in Hi. exact (Hk (Hn _ Hi)). }
  assert (Ha : exists x r r', abs1 c t (view w1 k) = Some (x, r) /\ abs1 c t (view w k) = Some (x, r') /\ match c with CDel _ => True | _ => r = r' end).
  { destruct c; cbn in Hc; try contradiction; cbn [abs1]; eauto 8. }
  destruct Ha as (x & r & r' & A1 & A2 & Hr). destruct (run_single_ex c k t w1 x r R1 Hs A1) as (w2 & E2 & R2 & V2 & O2).
  destruct (run_single_ex c k t w x r' Rw Hs A2) as (w3 & E3 & R3 & V3 & O3). exists w2, r, w3, r'. split; [auto|]. split; [auto|]. split; [|exact Hr].
  apply indist_of_view; auto. intros k'. destruct (decide (k' = k)) as [->|Hk]; [congruence|]. rewrite O2, O3, Ho; auto.
Qed.
(** Set does not: an old deadline stays (C06) *)
Example C161_not_set : replies [(0, CSetEX (bs "k") (bs "a") 1); (1, CSet (bs "k") (bs "b")); (2000000000, CGet (bs "k"))] (new_world 0) <>
  option_map (cons (RStr (bs "OK", None))) (replies [(1, CSet (bs "k") (bs "b")); (2000000000, CGet (bs "k"))] (new_world 0)).
Proof. vm_compute. discriminate. Qed.

(** ** C162: counting calls add up *)
Lemma incr_val_twice x a b : incr_val x (wrap64 (a + b)) = match incr_val x a with Some (y, _) => incr_val y b | None => None end.
Proof.
  assert (U : forall t, wrapu64 (t + wrap64 (a + b)) = wrapu64 (wrapu64 (t + a) + b)).
  { intros t. unfold wrapu64. rewrite <- (Z.add_mod_idemp_r t) by discriminate. rewrite wrap64_cong, Z.add_mod_idemp_r, Z.add_mod_idemp_l by discriminate. f_equal. lia. }
  assert (M : forall z, wrap64 z mod two32 = z mod two32).
  { intros z. pose proof (wrap64_cong z) as H. assert (X : forall y, y mod two32 = (y mod two64) mod two32).
    { intros y. change two64 with (two32 * two32). rewrite Z.rem_mul_r by (reflexivity || discriminate). rewrite Z.mul_comm, Z_mod_plus_full. rewrite Z.mod_mod by discriminate. reflexivity. }
    rewrite (X (wrap64 z)), H, <- X. reflexivity. }
  assert (U32 : forall t, wrapu32 (t + wrap64 (a + b)) = wrapu32 (wrapu32 (t + a) + b)).
  { intros t. unfold wrapu32. rewrite <- (Z.add_mod_idemp_r t) by discriminate. rewrite M, Z.add_mod_idemp_r, Z.add_mod_idemp_l by discriminate. f_equal. lia. }
  assert (W64 : forall t, wrap64 (t + wrap64 (a + b)) = wrap64 (wrap64 (t + a) + b)).
  { intros t. rewrite wrap64_add_r, wrap64_add_l. f_equal. lia. }
  assert (W32 : forall t, wrap32 (t + wrap64 (a + b)) = wrap32 (wrap32 (t + a) + b)).
  { intros t. unfold wrap32. f_equal. replace (t + wrap64 (a + b) + two31) with (wrap64 (a + b) + (t + two31)) by lia. rewrite <- Z.add_mod_idemp_l by discriminate. rewrite M, Z.add_mod_idemp_l by discriminate.
    replace ((t + a + two31) mod two32 - two31 + b + two31) with ((t + a + two31) mod two32 + b) by lia. rewrite Z.add_mod_idemp_l by discriminate. f_equal. lia. }
  destruct x; cbn [incr_val]; rewrite ?U, ?U32, ?W64, ?W32; reflexivity.
Qed.
Theorem C162_two_increments w k t1 t2 t3 a b : ready w -> same_at w [(t1, CIncrBy k a); (t2, CIncrBy k b)] [(t3, CIncrBy k (wrap64 (a + b)))].
Proof.
  intros Rw. apply (same_at_of _ _ k); [auto|repeat constructor|repeat constructor|]. cbn [ahist abs1 wr]. unfold wr, a_incr.
  destruct (view w k) as [[[x|o]|] d]; cbn [fst snd].
  - rewrite incr_val_twice. destruct (incr_val x a) as [[y n]|] eqn:E1; cbn [fst snd].
    + assert (exists z m, incr_val y b = Some (z, m)) as (z & m & ->) by (destruct x; cbn in E1; try discriminate; injection E1 as <- _; cbn; eauto). cbn. auto.
    + destruct x; cbn in E1; try discriminate; cbn; auto.
  - cbn. auto.
  - cbn. auto.
Qed.
Theorem C162_incr_decr w k t d : ready w ->
  same_at w [(t, CIncr k)] [(t, CIncrBy k 1)] /\ same_at w [(t, CDecr k)] [(t, CIncrBy k (-1))] /\ same_at w [(t, CDecrBy k d)] [(t, CIncrBy k (wrap64 (- d)))].
Proof.
  intros Rw. split; [|split]; (apply (same_at_of _ _ k); [auto|repeat constructor|repeat constructor|]); cbn [ahist abs1]; unfold wr; auto.
Qed.

(** ** C163: Append piece by piece

    The full statement: Append(k, a) followed by Append(k, b) is Append(k, a ++ b). It is false: in between the text may be
    taken for a number. *)
Theorem C163_append_pieces_refuted : exists k a b, replies [(1, CSet k (bs "1")); (2, CAppend k a); (3, CAppend k b); (4, CGet k)] (new_world 0) =
    Some [RStr (bs "OK", None); RInt (3, None); RInt (2, None); RStr (bs "1x", None)] /\
  replies [(1, CSet k (bs "1")); (2, CAppend k (a ++ b)); (4, CGet k)] (new_world 0) = Some [RStr (bs "OK", None); RInt (4, None); RStr (bs "1.0x", None)].
Proof. exists (bs "k"), (bs ".0"), (bs "x"). vm_compute. auto. Qed.
Lemma purge_put t s v : good v -> purge t (put s (purge t v)) = put s (purge t v).
Proof. unfold good. destruct v as [[c|] [d|]]; cbn; intros G; try discriminate G; try destruct (d <? t) eqn:E; cbn; rewrite ?E; reflexivity. Qed.
Lemma purge_twice t v : purge t (purge t v) = purge t v.
Proof. destruct v as [[c|] [d|]]; cbn; try destruct (d <? t) eqn:E; cbn; rewrite ?E; reflexivity. Qed.
(** It holds whenever the text in between is kept as it is. *)
Theorem C163_append_pieces_partial w k t a b : reachable w ->
  match answer t (CGet k) w with
  | Some (RStr (old, None)) => plain (old ++ a)
  | Some (RStr (_, Some ErrKeyNil)) => plain a
  | _ => True
  end -> same_at w [(t, CAppend k a); (t, CAppend k b)] [(t, CAppend k (a ++ b))].
Proof.
  intros Re H. pose proof (reachable_ready w Re) as Rw. pose proof (goods_reachable w Re k) as Hg. rewrite (answer_single _ k) in H by auto. cbn [abs1] in H. apply (same_at_of _ _ k); [auto|repeat constructor|repeat constructor|]. cbn [ahist abs1].
  set (p := purge t (view w k)) in *. assert (Hp : purge t p = p) by apply purge_twice.
  assert (Hq : forall s, purge t (put s p) = put s p) by (intros s; apply purge_put, Hg). clearbody p. destruct (fst p) as [x|] eqn:Ex.
  - destruct (fmt_cell x) as [o|] eqn:Ef.
    + rewrite Hq. cbn [put fst fmt_cell]. unfold fmt_cret in H. rewrite Ef in H. cbn in H. rewrite fmt_try, H. cbn. unfold put. rewrite <- app_assoc. auto.
    + rewrite Hp, Ex, Ef. cbn. auto.
  - rewrite Hq. cbn [put fst fmt_cell]. cbn in H. rewrite fmt_try, H. cbn. unfold put. auto.
Qed.

(** ** C164: a call on several keys or fields is the calls on each of them *)
(** every reply is a number and no error, and [n] is their sum *)
Fixpoint sums_to (rs : list reply) (n : Z) : Prop :=
  match rs with
  | [] => n = 0
  | RInt (m, None) :: r => sums_to r (n - m)
  | _ => False
  end.
(** [c] does what the calls [cs] do and answers the sum of their answers *)
Definition batch_of (w : world) (t : Z) (c : call) (cs : list call) : Prop :=
  exists w1 n w2 rs, run_call t c w = Done w1 (RInt (n, None)) /\ run_hist (map (pair t) cs) w = Done w2 rs /\ sums_to rs n /\ indist w1 w2.
Lemma msetnx_sets t kv : forall n w V, ready w -> veq (view w) V -> exists w' rs,
  run_hist (map (pair t) (map (fun p => CSetNX (fst p) (snd p)) kv)) w = Done w' rs /\ ready w' /\ veq (view w') (fst (a_msetnx kv n V)) /\ sums_to rs (snd (a_msetnx kv n V) - n).
Proof.
  induction kv as [|[k v] kv IH]; intros n w V Rw Hv; cbn [map a_msetnx run_hist]; [exists w, []; cbn; split; [auto|]; split; [auto|]; split; [auto|lia]|]. cbn [fst snd].
  rewrite <- (Hv k). destruct (view w k) as [[c|] d] eqn:Ek; cbn [fst].
  - destruct (run_single_ex (CSetNX k v) k t w (Some c, d) (RInt (0, None)) Rw eq_refl) as (w1 & E & R1 & V1 & O1); [cbn; rewrite Ek; reflexivity|].
    destruct (IH n w1 V R1) as (w2 & rs & E2 & R2 & V2 & S2). { intros k'. destruct (decide (k' = k)) as [->|Hk]; [rewrite V1, <- Ek; apply Hv|rewrite O1 by auto; apply Hv]. }
    rewrite E, E2. exists w2, (RInt (0, None) :: rs). split; [auto|]. split; [auto|]. split; [auto|]. cbn. rewrite Z.sub_0_r. exact S2.
  - destruct (run_single_ex (CSetNX k v) k t w (put v (None, d)) (RInt (1, None)) Rw eq_refl) as (w1 & E & R1 & V1 & O1); [cbn; rewrite Ek; reflexivity|].
    destruct (IH (n + 1) w1 (upd V k (put v (None, d))) R1) as (w2 & rs & E2 & R2 & V2 & S2).
    { intros k'. unfold upd. destruct (decide (k' = k)) as [->|Hk]; [exact V1|rewrite O1 by auto; apply Hv]. }
    rewrite E, E2. exists w2, (RInt (1, None) :: rs). split; [auto|]. split; [auto|]. split; [auto|]. cbn [sums_to]. match goal with |- sums_to _ (?x - n - 1) => replace (x - n - 1) with (x - (n + 1)) by lia end. exact S2.
Qed.
Theorem C164_msetnx w t kv : ready w -> batch_of w t (CMSetNX kv) (map (fun p => CSetNX (fst p) (snd p)) kv).
Proof.
  intros Rw. destruct (msetnx_sets t kv 0 w (view w) Rw (fun _ => eq_refl)) as (w2 & rs & E2 & R2 & V2 & S2). destruct (a_msetnx kv 0 (view w)) as [V n] eqn:Ea. cbn [fst snd] in *.
  destruct (run_intro (CMSetNX kv) t w V (RInt (noerr n)) Rw) as (w1 & E1 & R1 & V1); [cbn; rewrite Ea; reflexivity|].
  exists w1, n, w2, rs. split; [exact E1|]. split; [exact E2|]. split; [replace n with (n - 0) by lia; exact S2|]. apply indist_of_view; auto. intros k. rewrite V1, V2. reflexivity.
Qed.
Theorem C164_exists w t ks : ready w -> batch_of w t (CExists ks) (map (fun k => CExists [k]) ks).
Proof.
  intros Rw. assert (G : forall ks n w', ready w' -> veq (view w') (view w) -> exists w2 rs, run_hist (map (pair t) (map (fun k => CExists [k]) ks)) w' = Done w2 rs /\ ready w2 /\ veq (view w2) (view w) /\ sums_to rs (a_exists ks n (view w) - n)).
  { clear ks. induction ks as [|k ks IH]; intros n w' R' Hv; cbn [map a_exists run_hist]; [exists w', []; cbn; split; [auto|]; split; [auto|]; split; [auto|lia]|].
    destruct (run_intro (CExists [k]) t w' (view w') (RInt (noerr (a_exists [k] 0 (view w')))) R' eq_refl) as (w1 & E1 & R1 & V1). cbn [a_exists] in E1. rewrite (Hv k) in E1.
    destruct (IH (match fst (view w k) with Some _ => n + 1 | None => n end) w1 R1) as (w2 & rs & E2 & R2 & V2 & S2). { intros k'. rewrite V1. apply Hv. }
    rewrite E1, E2. eexists w2, _. split; [reflexivity|]. split; [auto|]. split; [auto|]. destruct (fst (view w k)); cbn [noerr sums_to]; [|rewrite Z.sub_0_r; exact S2].
    match goal with |- sums_to _ ?x => replace x with (a_exists ks (n + 1) (view w) - (n + 1)) by lia end. exact S2. }
  destruct (G ks 0 w Rw (fun _ => eq_refl)) as (w2 & rs & E2 & R2 & V2 & S2).
  destruct (run_intro (CExists ks) t w _ _ Rw eq_refl) as (w1 & E1 & R1 & V1). exists w1, (a_exists ks 0 (view w)), w2, rs. split; [exact E1|]. split; [exact E2|].
  split; [rewrite Z.sub_0_r in S2; exact S2|]. apply indist_of_view; auto. intros k. rewrite V1, V2. reflexivity.
Qed.

(** the hash calls, on a key that does not hold a string (which would make all of them fail) *)
Lemma o_del_acc fs : forall o n, o_del o fs n = (fst (o_del o fs 0), n + snd (o_del o fs 0)).
Proof.
  induction fs as [|f fs IH]; intros o n; cbn [o_del]; [cbn; f_equal; lia|]. destruct (o_get o f).
  - rewrite (IH _ (n + 1)), (IH _ (0 + 1)). cbn [fst snd]. f_equal. lia.
  - rewrite (IH _ n). reflexivity.
Qed.
Lemma o_del_len fs : forall o n m, h_len (fst (o_del o fs n)) = h_len o /\ h_map (fst (o_del o fs n)) = h_map (fst (o_del (HObj (h_map o) m) fs n)).
Proof.
  induction fs as [|f fs IH]; intros o n m; cbn [o_del fst]; [auto|]. change (o_get (HObj (h_map o) m) f) with (o_get o f). destruct (o_get o f); [|apply IH].
  cbn [h_map]. destruct (IH (HObj (delete f (h_map o)) (h_len o)) (n + 1) m) as [A B]. split; [exact A|]. rewrite B. reflexivity.
Qed.
Lemma o_del_count fs : forall o n m, snd (o_del o fs n) = snd (o_del (HObj (h_map o) m) fs n).
Proof.
  induction fs as [|f fs IH]; intros o n m; cbn [o_del snd]; [auto|]. change (o_get (HObj (h_map o) m) f) with (o_get o f). destruct (o_get o f); [|apply IH].
  cbn [h_map]. rewrite (IH _ (n + 1) m). reflexivity.
Qed.
Definition hdel_obj (o : hobj) (fs : list gostr) : hobj := let '(o', n) := o_del o fs 0 in if n =? 0 then o' else HObj (h_map o') (wrap64 (h_len o' - n)).
Lemma o_del_nonneg fs : forall o, 0 <= snd (o_del o fs 0).
Proof.
  induction fs as [|f fs IH]; intros o; cbn [o_del]; [cbn; lia|]. destruct (o_get o f); [|apply IH]. rewrite o_del_acc. cbn [snd]. specialize (IH (HObj (delete f (h_map o)) (h_len o))). lia.
Qed.
Lemma o_del_cons o f fs : hdel_obj o (f :: fs) = hdel_obj (hdel_obj o [f]) fs /\ snd (o_del o (f :: fs) 0) = snd (o_del o [f] 0) + snd (o_del (hdel_obj o [f]) fs 0).
Proof.
  unfold hdel_obj. cbn [o_del]. destruct (o_get o f) as [s|] eqn:Eg; [|cbn [Z.eqb snd]; split; reflexivity].
  change (0 + 1) with 1. change (1 =? 0) with false. cbn [h_map h_len snd]. rewrite (o_del_acc fs _ 1). set (o1 := HObj (delete f (h_map o)) (h_len o)). set (o2 := HObj (delete f (h_map o)) (wrap64 (h_len o - 1))).
  pose proof (o_del_nonneg fs o1) as Hn. pose proof (o_del_count fs o1 0 (wrap64 (h_len o - 1))) as Hc. destruct (o_del_len fs o1 0 (wrap64 (h_len o - 1))) as [L1 M1].
  destruct (o_del_len fs o2 0 0) as [L2 _]. change (HObj (h_map o1) (wrap64 (h_len o - 1))) with o2 in Hc, M1.
  destruct (o_del o1 fs 0) as [a n], (o_del o2 fs 0) as [b m]. cbn [fst snd h_len] in *. subst m. split; [|reflexivity].
  destruct (Z.eqb_spec (1 + n) 0); [lia|]. destruct (Z.eqb_spec n 0) as [->|].
  - destruct b as [bm bl]. cbn in *. subst bl. rewrite L1, M1. reflexivity.
  - rewrite L1, L2, M1. cbn [h_len o1 o2]. f_equal. unfold o1, o2. cbn [h_len]. rewrite <- (Z.add_opp_r (wrap64 (h_len o - 1)) n), wrap64_add_l. f_equal. lia.
Qed.
Lemma hdel_run t fs k : forall o d, (forall dl, d = Some dl -> t <= dl) -> exists rs, ahist (map (pair t) (map (fun f => CHDel k [f]) fs)) (Some (CH o), d) = Some ((Some (CH (hdel_obj o fs)), d), rs) /\ sums_to rs (snd (o_del o fs 0)).
Proof.
  induction fs as [|f fs IH]; intros o d Hd; cbn [map ahist]; [exists []; cbn; auto|].
  assert (Hp : purge t (Some (CH o), d) = (Some (CH o), d)). { destruct d as [dl|]; [|reflexivity]. cbn. specialize (Hd _ eq_refl). destruct (Z.ltb_spec dl t); [lia|reflexivity]. }
  assert (Hb : abs1 (CHDel k [f]) t (Some (CH o), d) = Some ((Some (CH (hdel_obj o [f])), d), RInt (snd (o_del o [f] 0), None))).
  { cbn [abs1]. rewrite Hp. unfold wr, a_hread, hdel_obj. cbn [fst snd]. destruct (o_del o [f] 0). reflexivity. }
  destruct (o_del_cons o f fs) as [-> ->].
  rewrite Hb. cbn [fst snd]. destruct (IH (hdel_obj o [f]) d Hd) as (rs & -> & S). eexists. split; [reflexivity|]. cbn [sums_to]. replace (snd (o_del o [f] 0) + snd (o_del (hdel_obj o [f]) fs 0) - snd (o_del o [f] 0)) with (snd (o_del (hdel_obj o [f]) fs 0)) by lia. exact S.
Qed.

Lemma hdel_absent t fs k d : exists rs, ahist (map (pair t) (map (fun f => CHDel k [f]) fs)) (None, d) = Some ((None, d), rs) /\ sums_to rs 0.
Proof.
  induction fs as [|f fs IH]; cbn [map ahist]; [exists []; cbn; auto|]. cbn [abs1 purge]. unfold wr, a_hread. cbn [fst snd]. destruct IH as (rs & -> & S). eexists. split; [reflexivity|]. cbn [sums_to]. exact S.
Qed.
(** the key does not hold a string *)
Definition no_string (t : Z) (w : world) (k : gostr) : Prop := exists n, answer t (CHLen k) w = ok_int n.
Lemma no_string_view t w k : ready w -> no_string t w k -> (fst (purge t (view w k)) = None /\ True) \/ exists o, fst (purge t (view w k)) = Some (CH o).
Proof.
  intros Rw [n H]. rewrite (answer_single _ k) in H by auto. cbn [abs1] in H. unfold wr, a_hread in H. destruct (fst (purge t (view w k))) as [[x|o]|]; cbn in H; [discriminate|eauto|eauto].
Qed.
Lemma purge_not t v o d : purge t v = (Some (CH o), d) -> v = (Some (CH o), d) /\ forall dl, d = Some dl -> t <= dl.
Proof.
  destruct v as [[c|] [dl|]]; cbn; try discriminate.
  - destruct (Z.ltb_spec dl t); [discriminate|]. intros [= -> <-]. split; [reflexivity|]. intros ? [= <-]. lia.
  - intros [= -> <-]. split; [reflexivity|discriminate].
Qed.
Lemma batch_single w t c cs k x n rs : ready w -> single c = Some k -> Forall (fun c => single c = Some k) cs ->
  abs1 c t (view w k) = Some (x, RInt (n, None)) -> ahist (map (pair t) cs) (view w k) = Some (x, rs) -> sums_to rs n -> batch_of w t c cs.
Proof.
  intros Rw Hc Hcs A1 A2 S. assert (Hall : all_calls (fun _ c => single c = Some k) (map (pair t) cs)) by (unfold all_calls; rewrite Forall_map; exact Hcs).
  pose proof (run_ahist (map (pair t) cs) k w Rw Hall) as H. rewrite A2 in H. destruct H as (w2 & E2 & R2 & V2 & O2).
  destruct (run_single_ex c k t w x _ Rw Hc A1) as (w1 & E1 & R1 & V1 & O1). exists w1, n, w2, rs. split; [auto|]. split; [auto|]. split; [auto|].
  apply indist_of_view; auto. intros k'. destruct (decide (k' = k)) as [->|Hk]; [congruence|]. rewrite O1, O2; auto.
Qed.
Lemma purge_absent t v : fst (purge t v) = None -> v = (None, snd v) \/ purge t v = (None, None).
Proof. destruct v as [[c|] [d|]]; cbn; auto; try discriminate. destruct (d <? t); cbn; auto; discriminate. Qed.
Theorem C164_hdel w t k f fs : ready w -> no_string t w k -> batch_of w t (CHDel k (f :: fs)) (map (fun f => CHDel k [f]) (f :: fs)).
Proof.
  intros Rw Hn. destruct (no_string_view t w k Rw Hn) as [[Ha _]|[o Ho]].
  - destruct (hdel_absent t fs k (snd (purge t (view w k)))) as (rs & E & S).
    apply (batch_single w t _ _ k (purge t (view w k)) 0 (RInt (0, None) :: rs)); [exact Rw|reflexivity|apply List.Forall_forall; intros c Hc; apply in_map_iff in Hc as (? & <- & _); reflexivity| | |].
    + cbn [abs1]. unfold wr, a_hread. rewrite Ha. reflexivity.
    + cbn [map ahist abs1]. unfold wr, a_hread. rewrite Ha. cbn [fst snd]. destruct (purge t (view w k)) as [c d]. cbn in Ha, E. subst c. rewrite E. reflexivity.
    + cbn. exact S.
  - destruct (purge t (view w k)) as [c d] eqn:Ep. cbn in Ho. subst c. destruct (purge_not t (view w k) o d Ep) as [Hv Hd].
    destruct (hdel_run t (f :: fs) k o d Hd) as (rs & E & S).
    apply (batch_single w t _ _ k (Some (CH (hdel_obj o (f :: fs))), d) (snd (o_del o (f :: fs) 0)) rs); [exact Rw|reflexivity|apply List.Forall_forall; intros c Hc; apply in_map_iff in Hc as (? & <- & _); reflexivity| | |exact S].
    + cbn [abs1]. rewrite Ep. unfold wr, a_hread, hdel_obj. cbn [fst snd]. destruct (o_del o (f :: fs) 0). reflexivity.
    + rewrite Hv. exact E.
Qed.
Lemma o_mset_acc fv : forall o n, o_mset o fv n = (fst (o_mset o fv 0), n + snd (o_mset o fv 0)).
Proof.
  induction fv as [|[f v] fv IH]; intros o n; cbn [o_mset]; [cbn; f_equal; lia|]. rewrite (IH _ (n + _)), (IH _ (0 + _)). cbn [fst snd]. f_equal. lia.
Qed.
Lemma hmset_run t fv k : forall o d, (forall dl, d = Some dl -> t <= dl) -> exists rs,
  ahist (map (pair t) (map (fun p => CHSet k (fst p) (snd p)) fv)) (Some (CH o), d) = Some ((Some (CH (fst (o_mset o fv 0))), d), rs) /\ sums_to rs (snd (o_mset o fv 0)).
Proof.
  induction fv as [|[f v] fv IH]; intros o d Hd; cbn [map ahist]; [exists []; cbn; auto|].
  assert (Hp : purge t (Some (CH o), d) = (Some (CH o), d)). { destruct d as [dl|]; [|reflexivity]. cbn. specialize (Hd _ eq_refl). destruct (Z.ltb_spec dl t); [lia|reflexivity]. }
  cbn [abs1 fst snd]. rewrite Hp. unfold wr, a_hwrite. cbn [fst snd]. destruct (IH (o_set o f v) d Hd) as (rs & -> & S). eexists. cbn [o_mset]. rewrite (o_mset_acc fv _ (0 + o_isnew o f)). cbn [fst snd]. split; [reflexivity|].
  cbn [sums_to]. match goal with |- sums_to _ ?x => replace x with (snd (o_mset (o_set o f v) fv 0)) by lia end. exact S.
Qed.
Theorem C164_hmset w t k f v fv : reachable w -> no_string t w k -> batch_of w t (CHMSet k ((f, v) :: fv)) (map (fun p => CHSet k (fst p) (snd p)) ((f, v) :: fv)).
Proof.
  intros Re Hn. pose proof (reachable_ready w Re) as Rw. pose proof (goods_reachable w Re k) as Hg. destruct (no_string_view t w k Rw Hn) as [[Ha _]|[o Ho]].
  - assert (Hp : purge t (view w k) = (None, None)).
    { destruct (purge_absent t (view w k) Ha) as [Hv|]; [|auto]. rewrite Hv in Hg |- *. unfold good in Hg. cbn in Hg. rewrite Hg. reflexivity. }
    destruct (hmset_run t fv k (o_set empty_hobj f v) None ltac:(discriminate)) as (rs & E & S).
    apply (batch_single w t _ _ k (Some (CH (fst (o_mset (o_set empty_hobj f v) fv 0))), None) (1 + snd (o_mset (o_set empty_hobj f v) fv 0)) (RInt (1, None) :: rs)); [exact Rw|reflexivity|apply List.Forall_forall; intros c Hc; apply in_map_iff in Hc as (? & <- & _); reflexivity| | |].
    + cbn [abs1]. rewrite Hp. unfold wr, a_hwrite. cbn [fst snd o_mset]. rewrite (o_mset_acc fv _ (0 + o_isnew empty_hobj f)). cbn [fst snd]. reflexivity.
    + cbn [map ahist abs1 fst snd]. rewrite Hp. unfold wr, a_hwrite. cbn [fst snd]. rewrite E. reflexivity.
    + cbn [sums_to]. match goal with |- sums_to _ ?x => replace x with (snd (o_mset (o_set empty_hobj f v) fv 0)) by lia end. exact S.
  - destruct (purge t (view w k)) as [c d] eqn:Ep. cbn in Ho. subst c. destruct (purge_not t (view w k) o d Ep) as [Hv Hd].
    destruct (hmset_run t ((f, v) :: fv) k o d Hd) as (rs & E & S).
    apply (batch_single w t _ _ k (Some (CH (fst (o_mset o ((f, v) :: fv) 0))), d) (snd (o_mset o ((f, v) :: fv) 0)) rs); [exact Rw|reflexivity|apply List.Forall_forall; intros c Hc; apply in_map_iff in Hc as (? & <- & _); reflexivity| | |exact S].
    + cbn [abs1]. rewrite Ep. unfold wr, a_hwrite. cbn [fst snd]. destruct (o_mset o ((f, v) :: fv) 0). reflexivity.
    + rewrite Hv. exact E.
Qed.

(** ** C165: SetEX counts seconds, PSetEX milliseconds *)
Theorem C165_setex_psetex w t k v n : ready w -> same_at w [(t, CSetEX k v n)] [(t, CPSetEX k v (wrap64 (1000 * n)))].
Proof.
  intros Rw. apply (same_at_of _ _ k); [auto|repeat constructor|repeat constructor|]. cbn [ahist abs1]. split; [reflexivity|]. f_equal. f_equal.
  apply wrap64_eq_mod. rewrite <- (Z.mul_mod_idemp_r millisecond) by discriminate. rewrite wrap64_cong, Z.mul_mod_idemp_r by discriminate. f_equal. unfold second, millisecond. lia.
Qed.

(** ** C166: a conditional write that applies is the plain write

    The full statement: when the key (or field) is absent, SetNX is Set, MSetNX is MSet, and HSetNX is HSet. It is false for
    HSetNX, which keeps number literals as they are written. *)
Theorem C166_hsetnx_refuted : exists k f v, replies [(1, CHSetNX k f v); (2, CHGet k f)] (new_world 0) = Some [RInt (1, None); RStr (bs "007", None)] /\
  replies [(1, CHSet k f v); (2, CHGet k f)] (new_world 0) = Some [RInt (1, None); RStr (bs "7", None)].
Proof. exists (bs "k"), (bs "f"), (bs "007"). vm_compute. auto. Qed.
Theorem C166_setnx_partial w t k v : ready w -> stored w k = None -> same_after w [(t, CSetNX k v)] [(t, CSet k v)].
Proof.
  intros Rw Hs. apply (same_after_of _ _ k); [auto|repeat constructor|repeat constructor|]. cbn [ahist abs1]. rewrite (view_none w k Rw Hs). reflexivity.
Qed.
Theorem C166_msetnx_partial w t kv : ready w -> NoDup (map fst kv) -> Forall (fun p => stored w (fst p) = None) kv -> same_after w [(t, CMSetNX kv)] [(t, CMSet kv)].
Proof.
  intros Rw Hd Hn. assert (G : forall kv n V, NoDup (map fst kv) -> Forall (fun p => fst (V (fst p)) = None) kv -> fst (a_msetnx kv n V) = a_mset kv V).
  { clear. induction kv as [|[k v] kv IH]; intros n V Hd Hn; cbn [a_msetnx a_mset]; [reflexivity|]. cbn [map] in Hd. inversion_clear Hn as [|? ? H1 H2]. inversion_clear Hd as [|? ? D1 D2]. cbn [fst] in *.
    rewrite H1. apply IH; auto. rewrite List.Forall_forall in H2 |- *. intros [k' v'] Hi. cbn [fst]. rewrite upd_ne; [exact (H2 _ Hi)|]. intros ->. apply D1, elem_of_list_In, in_map_iff. exists (k, v'). auto. }
  specialize (G kv 0 (view w) Hd). unfold same_after. cbn [run_hist].
  destruct (a_msetnx kv 0 (view w)) as [V n] eqn:Ea. cbn [fst] in G. destruct (run_intro (CMSetNX kv) t w V (RInt (noerr n)) Rw) as (w1 & -> & R1 & V1); [cbn [abs]; rewrite Ea; reflexivity|].
  destruct (run_intro (CMSet kv) t w _ _ Rw eq_refl) as (w2 & -> & R2 & V2). apply indist_of_view; auto. intros k. rewrite V1, V2, G; [reflexivity|].
  eapply Forall_impl; [|exact Hn]. intros [k' v'] H. cbn in *. apply view_none; auto.
Qed.
Theorem C166_hsetnx_partial w t k f v : ready w -> atoi v = None -> parse_float v = None -> answer t (CHGet k f) w = err_str ErrKeyNil ->
  same_at w [(t, CHSetNX k f v)] [(t, CHSet k f v)].
Proof.
  intros Rw Ha Hf H. rewrite (answer_single _ k) in H by auto. cbn [abs1] in H. apply (same_at_of _ _ k); [auto|repeat constructor|repeat constructor|]. cbn [ahist abs1].
  unfold wr, a_hread, a_hwrite, o_set, o_isnew in *. assert (Et : try_int64 v = VStr v) by (unfold try_int64; rewrite Ha, Hf; reflexivity). rewrite Et.
  destruct (fst (purge t (view w k))) as [[x|o]|]; cbn [fst snd] in *.
  - discriminate.
  - unfold o_get in H. destruct (h_map o !! f) as [y|]; cbn in *; [discriminate|auto].
  - auto.
Qed.

(** ** C167: SetRange at the end of the text is Append *)
Theorem C167_setrange_at_end w t k n r : ready w -> answer t (CStrLen k) w = ok_int n -> same_at w [(t, CSetRange k n r)] [(t, CAppend k r)].
Proof.
  intros Rw H. rewrite (answer_single _ k) in H by auto. cbn [abs1] in H. apply (same_at_of _ _ k); [auto|repeat constructor|repeat constructor|]. cbn [ahist abs1].
  destruct (fst (purge t (view w k))) as [x|]; cbn in H.
  - destruct (fmt_cell x) as [o|]; [|discriminate]. injection H as <-. pose proof (zlen_nonneg o). destruct (Z.ltb_spec (zlen o) 0); [lia|].
    assert (E : setrange_loop (o ++ repeat x00 (Z.to_nat (zlen o) - length o)) (Z.to_nat (zlen o)) r = o ++ r).
    { unfold zlen. rewrite Nat2Z.id, Nat.sub_diag. cbn [repeat]. rewrite app_nil_r, setrange_loop_spec by lia. rewrite take_ge by lia. rewrite drop_ge by lia. rewrite app_nil_r. reflexivity. }
    rewrite E. cbn. auto.
  - injection H as <-. change (0 <? 0) with false. cbv iota. change (0 >? max_alloc) with false. cbn [Z.to_nat repeat app]. cbv iota. auto.
Qed.
Example C160_nonvacuous : let h1 := [(1, CHSet (bs "a") (bs "f") (bs "1")); (2, CAppend (bs "c") (bs "x"))] in let h2 := [(1, CMSet [(bs "b", bs "2"); (bs "d", bs "3")]); (3, CIncr (bs "b"))] in
  split_by (fun k => k = bs "a" \/ k = bs "c") (map (pair true) h1 ++ map (pair false) h2) /\ replies (h1 ++ h2) (new_world 0) = Some [RInt (1, None); RInt (1, None); RStr (bs "OK", None); RInt (3, None)] /\
  replies (h2 ++ h1) (new_world 0) = Some [RStr (bs "OK", None); RInt (3, None); RInt (1, None); RInt (1, None)].
Proof.
  split; [|split; vm_compute; reflexivity]. repeat constructor; auto; intros [H|H]; vm_compute in H; discriminate H.
Qed.
Example C161_nonvacuous : replies [(0, CHSet (bs "k") (bs "f") (bs "x")); (1, CSetEX (bs "k") (bs "b") 1); (2, CGet (bs "k"))] (new_world 0) = Some [RInt (1, None); RStr (bs "OK", None); RStr (bs "b", None)] /\
  replies [(1, CSetEX (bs "k") (bs "b") 1); (2, CGet (bs "k"))] (new_world 0) = Some [RStr (bs "OK", None); RStr (bs "b", None)].
Proof. split; vm_compute; reflexivity. Qed.
Example C162_nonvacuous : replies [(0, CSet (bs "k") (bs "5")); (1, CIncrBy (bs "k") 9223372036854775807); (2, CDecrBy (bs "k") (-3)); (3, CGet (bs "k"))] (new_world 0) =
  Some [RStr (bs "OK", None); RInt (-9223372036854775804, None); RInt (-9223372036854775801, None); RStr (bs "-9223372036854775801", None)].
Proof. vm_compute. reflexivity. Qed.
Example C163_nonvacuous : plain (bs "ab" ++ bs "c") /\ replies [(0, CSet (bs "k") (bs "ab")); (1, CAppend (bs "k") (bs "c")); (2, CAppend (bs "k") (bs "d")); (3, CGet (bs "k"))] (new_world 0) =
  Some [RStr (bs "OK", None); RInt (3, None); RInt (4, None); RStr (bs "abcd", None)].
Proof. split; vm_compute; reflexivity. Qed.
Example C164_nonvacuous : replies [(0, CHMSet (bs "k") [(bs "f", bs "1"); (bs "g", bs "2"); (bs "f", bs "3")]); (1, CHDel (bs "k") [bs "f"; bs "x"; bs "g"; bs "f"]); (2, CHLen (bs "k"))] (new_world 0) =
    Some [RInt (2, None); RInt (2, None); RInt (0, None)] /\
  replies [(0, CMSetNX [(bs "a", bs "1"); (bs "b", bs "2"); (bs "a", bs "3")]); (1, CExists [bs "a"; bs "a"; bs "c"])] (new_world 0) = Some [RInt (2, None); RInt (2, None)].
Proof. split; vm_compute; reflexivity. Qed.
(** with no field at all HMSet still creates the hash *)
Example C164_hmset_empty : replies [(0, CHMSet (bs "k") []); (1, CExists [bs "k"])] (new_world 0) = Some [RInt (0, None); RInt (1, None)].
Proof. vm_compute. reflexivity. Qed.
Example C166_nonvacuous : atoi (bs "x1") = None /\ parse_float (bs "x1") = None /\ replies [(0, CHSetNX (bs "k") (bs "f") (bs "x1")); (1, CHVals (bs "k"))] (new_world 0) = Some [RInt (1, None); RList ([bs "x1"], None)].
Proof. vm_compute. auto. Qed.
Example C167_nonvacuous : replies [(0, CSet (bs "k") (bs "abc")); (1, CStrLen (bs "k")); (2, CSetRange (bs "k") 3 (bs "de")); (3, CGet (bs "k"))] (new_world 0) =
  Some [RStr (bs "OK", None); RInt (3, None); RInt (5, None); RStr (bs "abcde", None)].
Proof. vm_compute. reflexivity. Qed.
Example C165_nonvacuous : replies [(0, CSetEX (bs "k") (bs "v") 2); (1999999999, CGet (bs "k")); (2000000001, CGet (bs "k"))] (new_world 0) =
  Some [RStr (bs "OK", None); RStr (bs "v", None); RStr ([], Some ErrKeyNil)].
Proof. vm_compute. reflexivity. Qed.

(** ** C31 for every call, hash calls included, and every error. A key-not-found answer leaves the cache as it was unless the key
    is past its deadline (then it is removed, C33). *)
Definition error_of (r : reply) : option goerr :=
  match r with RStr (_, e) | RInt (_, e) | RFloat (_, e) | RSlots (_, e) | RList (_, e) | RMap (_, e) => e | RUnit => None end.
Theorem C31_every_call_partial w t c w1 r e :
  ready w -> (match c with CGetSet _ _ => False | _ => True end) -> run_call t c w = Done w1 r -> error_of r = Some e ->
  (e = ErrKeyNil -> forall k, names c k -> ~ past w k t) -> indist w1 w.
Proof.
  intros Hr Hc E He Hk0. destruct (run_inv _ _ _ _ _ Hr E) as (V' & Ha & Hr1 & Hv1). apply indist_of_view; auto.
  destruct (single_cases c) as [[k Hk]|Hm].
  - assert (Hp : forall x, fst (purge t (view w k)) = Some x -> purge t (view w k) = view w k).
    { intros x. destruct (view w k) as [[y|] [dl|]]; cbn; auto. destruct (dl <? t); [discriminate|auto]. }
    assert (Hq : e = ErrKeyNil -> purge t (view w k) = view w k).
    { intros ->. apply purge_not_past; [auto|]. apply Hk0; [reflexivity|]. unfold names. destruct c; cbn [single keys_of] in *; try discriminate; injection Hk as ->; left. }
    rewrite (abs_single c k t _ Hk) in Ha. destruct (abs1 c t (view w k)) as [[x r0]|] eqn:E1; [|discriminate]. injection Ha as <- <-.
    assert (Hx : x = view w k).
    { clear E Hv1 Hk0. destruct (purge t (view w k)) as [p d] eqn:Ep. cbn [fst] in *.
      destruct c; try destruct Hc; cbn [abs1] in E1; rewrite ?Ep in E1; cbn [fst snd] in E1; unfold wr, a_incr, a_hread, a_hwrite, fmt_cret in E1; cbn [fst snd] in E1.
      all: repeat match type of E1 with
        | context [match ?y with _ => _ end] => destruct y eqn:?; cbn [fst snd] in E1
        end; try discriminate E1; injection E1 as <- <-; cbn [error_of noerr] in He; try discriminate He.
      all: try (injection He as <-).
      all: try reflexivity; try (eapply Hp; reflexivity); try (apply Hq; reflexivity).
      all: match goal with E2 : _ = (?h, _) |- (Some (CH ?h), _) = _ => unfold g_hincr in E2;
        repeat match type of E2 with context [match ?y with _ => _ end] => destruct y eqn:? end; injection E2 as <- <-; try discriminate He end.
      all: first [eapply Hp; reflexivity | match goal with E2 : h_map empty_hobj !! _ = Some _ |- _ => cbn in E2; rewrite lookup_empty in E2; discriminate E2 end]. }
    intros k'. rewrite Hv1. subst x. unfold upd. destruct (decide (k' = k)) as [->|]; reflexivity.
  - destruct c; try destruct Hm; cbn [abs] in Ha.
    all: repeat match type of Ha with context [let '(_, _) := ?y in _] => destruct y end; injection Ha as <- <-; discriminate He.
Qed.
Example C31_every_nonvacuous : replies [(1, CHSet (bs "k") (bs "f") (bs "x")); (2, CHIncrBy (bs "k") (bs "f") 1); (3, CHGet (bs "k") (bs "f"))] (new_world 0) =
  Some [RInt (1, None); RInt (0, Some ErrHashValueIsNotFloat); RStr (bs "x", None)].
Proof. vm_compute. reflexivity. Qed.

Print Assumptions C160_alone.
Print Assumptions C160_any_interleaving.
Print Assumptions C160_two_calls.
Print Assumptions C161_past_forgotten.
Print Assumptions C162_two_increments.
Print Assumptions C162_incr_decr.
Print Assumptions C163_append_pieces_refuted.
Print Assumptions C163_append_pieces_partial.
Print Assumptions C164_msetnx.
Print Assumptions C164_exists.
Print Assumptions C164_hdel.
Print Assumptions C164_hmset.
Print Assumptions C165_setex_psetex.
Print Assumptions C166_hsetnx_refuted.
Print Assumptions C166_setnx_partial.
Print Assumptions C166_msetnx_partial.
Print Assumptions C166_hsetnx_partial.
Print Assumptions C167_setrange_at_end.
Print Assumptions C31_every_call_partial.
