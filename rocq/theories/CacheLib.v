(** * CacheLib: lemmas used to prove the cache properties *)
From Verif Require Import Base GoFloat CacheModel CacheSpec CacheAbs CacheRefine CacheRefineH CacheMain.

Lemma run_single c k t w w' r : ready w -> run_call t c w = Done w' r -> single c = Some k ->
  abs1 c t (view w k) = Some (view w' k, r) /\ ready w' /\ forall k', k' <> k -> view w' k' = view w k'.
Proof.
  intros Hr E Hk. destruct (run_inv _ _ _ _ _ Hr E) as (V' & Ha & Hr' & Hv).
  rewrite (abs_single c k t _ Hk) in Ha. destruct (abs1 c t (view w k)) as [[x r']|]; [|discriminate].
  injection Ha as <- <-. split; [rewrite Hv, upd_eq; reflexivity|]. split; [exact Hr'|].
  intros k' Hne. rewrite Hv, upd_ne; auto.
Qed.

Lemma answer_single c k t w : ready w -> single c = Some k ->
  answer t c w = match abs1 c t (view w k) with Some (_, r) => Some r | None => None end.
Proof.
  intros Hr Hk. rewrite answer_eq by auto. rewrite (abs_single c k t _ Hk). destruct (abs1 c t (view w k)) as [[x r]|]; reflexivity.
Qed.

(** every non-panicking call has a result *)
Lemma run_single_ex c k t w x r : ready w -> single c = Some k -> abs1 c t (view w k) = Some (x, r) ->
  exists w', run_call t c w = Done w' r /\ ready w' /\ view w' k = x /\ forall k', k' <> k -> view w' k' = view w k'.
Proof.
  intros Hr Hk Ha. destruct (run_intro c t w (upd (view w) k x) r Hr) as (w' & E & Hr' & Hv).
  { rewrite (abs_single c k t _ Hk), Ha. reflexivity. }
  exists w'. split; [exact E|]. split; [exact Hr'|]. split; [rewrite Hv, upd_eq; reflexivity|].
  intros k' Hne. rewrite Hv, upd_ne; auto.
Qed.

Lemma view_dl w k : ready w -> snd (view w k) = deadline w k.
Proof.
  intros Hr. apply ready_iff in Hr as (d & e & h & n & t & -> & _). reflexivity.
Qed.
Lemma stored_view w k : ready w ->
  match stored w k with
  | None => fst (view w k) = None
  | Some (VHash _) => exists o, fst (view w k) = Some (CH o) /\ flat o
  | Some v => fst (view w k) = Some (CV v)
  end.
Proof.
  intros Hr. apply ready_iff in Hr as (d & e & h & n & t & -> & HW). unfold stored. simpl. unfold cellat.
  destruct (d !! k) as [v|] eqn:E; [|reflexivity]. destruct v; try reflexivity.
  destruct (wf_ptr _ _ _ HW _ _ E) as [o Ho]. exists o. simpl. rewrite Ho. split; [reflexivity|].
  intros f v. eapply wf_flat; eauto.
Qed.
Lemma view_stored w k : ready w ->
  match fst (view w k) with
  | None => stored w k = None
  | Some (CV v) => stored w k = Some v /\ scalar v
  | Some (CH o) => (exists l, stored w k = Some (VHash l)) /\ flat o
  end.
Proof.
  intros Hr. apply ready_iff in Hr as (d & e & h & n & t & -> & HW). unfold stored. simpl.
  destruct (key_cases d h n k HW) as [[Ed Ec]|[(x & Ed & Hx & Ec)|(l & o & Ed & Ho & Ec & Hf)]]; rewrite Ec, Ed; eauto.
Qed.
Lemma view_none w k : ready w -> stored w k = None -> fst (view w k) = None.
Proof. intros Hr E. pose proof (stored_view w k Hr) as H. rewrite E in H. exact H. Qed.
Lemma view_scalar w k v : ready w -> scalar v -> stored w k = Some v -> fst (view w k) = Some (CV v).
Proof. intros Hr Hs E. pose proof (stored_view w k Hr) as H. rewrite E in H. destruct v; auto. destruct Hs. Qed.
Lemma view_hash w k l : ready w -> stored w k = Some (VHash l) -> exists o, fst (view w k) = Some (CH o) /\ flat o.
Proof. intros Hr E. pose proof (stored_view w k Hr) as H. rewrite E in H. exact H. Qed.

(** purge *)
Lemma purge_past w k t : ready w -> past w k t -> fst (purge t (view w k)) = None.
Proof.
  intros Hr (dl & Hd & Hlt). rewrite <- (view_dl w k Hr) in Hd. destruct (view w k) as [[c|] e]; simpl in *; [|reflexivity].
  rewrite Hd. destruct (Z.ltb_spec dl t); [reflexivity|lia].
Qed.
Lemma purge_not_past w k t : ready w -> ~ past w k t -> purge t (view w k) = view w k.
Proof.
  intros Hr Hn. pose proof (view_dl w k Hr) as Hd. destruct (view w k) as [[c|] [dl|]]; simpl in *; try reflexivity.
  destruct (Z.ltb_spec dl t); [|reflexivity]. exfalso. apply Hn. exists dl. split; [symmetry; exact Hd|lia].
Qed.
Lemma purge_none t c : purge t (c, None) = (c, None).
Proof. destruct c; reflexivity. Qed.

Lemma fmt_try v : fmt_string (try_int64 v) = Some (text v).
Proof. unfold try_int64, text. destruct (atoi v); [reflexivity|]. destruct (parse_float v); reflexivity. Qed.

Lemma fmt_scalar v : scalar v -> exists s, fmt_string v = Some s.
Proof. destruct v; simpl; intros H; eauto. destruct H. Qed.

Lemma text_int z : is_int64 z = true -> text (itoa z) = itoa z.
Proof. intros H. unfold text. rewrite atoi_itoa by exact H. reflexivity. Qed.

(** ** calls and keys *)
Lemma a_mset_ne kv V k : ~ In k (map fst kv) -> a_mset kv V k = V k.
Proof.
  revert V. induction kv as [|[k' v] r IH]; intros V Hn; [reflexivity|]. simpl in *.
  rewrite IH by tauto. apply upd_ne. intros ->. tauto.
Qed.
Lemma a_msetnx_ne kv n V k : ~ In k (map fst kv) -> fst (a_msetnx kv n V) k = V k.
Proof.
  revert n V. induction kv as [|[k' v] r IH]; intros n V Hn; [reflexivity|]. simpl in *.
  destruct (fst (V k')); rewrite IH by tauto; [reflexivity|]. apply upd_ne. intros ->. tauto.
Qed.
Lemma a_mget_ne t ks V k : ~ In k ks -> fst (a_mget t ks V) k = V k.
Proof.
  revert V. induction ks as [|k' r IH]; intros V Hn; [reflexivity|]. simpl in *.
  specialize (IH (upd V k' (purge t (V k')))). destruct (a_mget t r _) as [V' l]. simpl in *.
  rewrite IH by tauto. apply upd_ne. intros ->. tauto.
Qed.
Lemma abs_ne c t V V' r k : ~ names c k -> abs c t V = Some (V', r) -> V' k = V k.
Proof.
  intros Hn Ha. destruct (single_cases c) as [[k0 Hk]|Hc].
  - rewrite (abs_single c k0 t _ Hk) in Ha. destruct (abs1 c t (V k0)) as [[x r0]|]; [|discriminate].
    injection Ha as <- <-. apply upd_ne. intros ->. apply Hn.
    unfold names. destruct c; cbn [single keys_of] in *; try discriminate; injection Hk as ->; left.
  - unfold names in Hn. destruct c; try destruct Hc; cbn [keys_of abs] in *; rewrite ?elem_of_list_In in Hn; try tauto.
    + injection Ha as <- <-. apply a_mset_ne, Hn.
    + destruct (a_msetnx kv 0 V) as [V1 n] eqn:E. injection Ha as <- <-.
      change V1 with (fst (V1, n)). rewrite <- E. apply a_msetnx_ne, Hn.
    + destruct (a_mget t ks V) as [V1 n] eqn:E. injection Ha as <- <-.
      change V1 with (fst (V1, n)). rewrite <- E. apply a_mget_ne, Hn.
    + injection Ha as <- <-. reflexivity.
Qed.

(** a call naming only [k] looks at nothing but the state of [k] *)
Lemma abs_local c t V1 V2 k : only_names c k -> V1 k = V2 k ->
  match abs c t V1, abs c t V2 with
  | Some (A, r), Some (B, r') => r = r' /\ A k = B k
  | None, None => True
  | _, _ => False
  end.
Proof.
  intros Ho E. destruct (single_cases c) as [[k0 Hk]|Hc].
  - assert (k0 = k) as ->.
    { unfold only_names in Ho. destruct c; cbn [single keys_of] in *; congruence. }
    rewrite !(abs_single c k) by auto. rewrite E. destruct (abs1 c t (V2 k)) as [[x r]|]; [|exact I].
    rewrite !upd_eq. auto.
  - unfold only_names in Ho. destruct c; try destruct Hc; cbn [keys_of abs] in *; try contradiction.
    + destruct kv as [|[k1 v] [|]]; cbn in Ho; try discriminate. injection Ho as ->. cbn. rewrite E, !upd_eq. auto.
    + destruct kv as [|[k1 v] [|]]; cbn in Ho; try discriminate. injection Ho as ->. cbn [a_msetnx]. rewrite E.
      destruct (fst (V2 k)); rewrite ?upd_eq; auto.
    + subst. cbn. rewrite E, !upd_eq. auto.
    + subst. cbn. rewrite E. auto.
Qed.

Lemma hist_ne h k : forall w w' rs, ready w -> run_hist h w = Done w' rs ->
  all_calls (fun _ c => ~ names c k) h -> view w' k = view w k.
Proof.
  induction h as [|[t c] h IH]; intros w w' rs Hr; simpl; [intros E; injection E as <- <-; auto|].
  destruct (run_call t c w) as [w1 x| |] eqn:E1; [|discriminate|discriminate].
  destruct (run_hist h w1) as [w2 xs| |] eqn:E2; [|discriminate|discriminate].
  intros E Hall; injection E as <- <-. inversion_clear Hall as [|? ? H1 H2]. simpl in H1.
  destruct (run_inv _ _ _ _ _ Hr E1) as (V' & Ha & Hr1 & Hv).
  rewrite (IH _ _ _ Hr1 E2 H2), Hv. eapply abs_ne; eauto.
Qed.
Lemma local_replies h k : forall w1 w2, ready w1 -> ready w2 -> view w1 k = view w2 k ->
  all_calls (fun _ c => only_names c k) h -> replies h w1 = replies h w2.
Proof.
  unfold replies. induction h as [|[t c] h IH]; intros w1 w2 R1 R2 Hv Hall; [reflexivity|]. simpl.
  inversion_clear Hall as [|? ? H1 H2]. simpl in H1.
  pose proof (refine c t w1 R1) as Hx1. pose proof (refine c t w2 R2) as Hx2.
  pose proof (abs_local c t _ _ k H1 Hv) as Hx.
  destruct (abs c t (view w1)) as [[V1 r1]|], (abs c t (view w2)) as [[V2 r2]|]; try destruct Hx.
  - destruct Hx1 as (a & -> & Ra & Va), Hx2 as (b & -> & Rb & Vb).
    assert (Hab : view a k = view b k) by (rewrite Va, Vb; auto).
    specialize (IH a b Ra Rb Hab H2). destruct (run_hist h a), (run_hist h b); congruence.
  - rewrite Hx1, Hx2. reflexivity.
Qed.

(** reads at a time at which the key is not past its deadline do not change its state *)
Lemma a_mget_id t ks V k : purge t (V k) = V k -> fst (a_mget t ks V) k = V k.
Proof.
  revert V. induction ks as [|k' r IH]; intros V Hp; [reflexivity|]. simpl.
  specialize (IH (upd V k' (purge t (V k')))). destruct (a_mget t r _) as [V' l]. simpl in *.
  assert (E : upd V k' (purge t (V k')) k = V k).
  { unfold upd. destruct (decide (k = k')) as [->|]; auto. }
  rewrite E in IH. auto.
Qed.
Lemma abs_reads c t V V' r k : reads c -> purge t (V k) = V k -> abs c t V = Some (V', r) -> V' k = V k.
Proof.
  intros Hc Hp Ha. destruct c; try destruct Hc; cbn [abs keys_of abs1] in Ha.
  all: try (injection Ha as <- _; unfold upd; destruct (decide _) as [->|]; auto; fail).
  - destruct (a_mget t ks V) as [V1 n] eqn:E. injection Ha as <- <-. change V1 with (fst (V1, n)). rewrite <- E. apply a_mget_id, Hp.
  - injection Ha as <- _. reflexivity.
Qed.

(** filters *)
Lemma list_filter_iff_In {A} (P Q : A -> Prop) `{!forall x, Decision (P x)} `{!forall x, Decision (Q x)} l :
  (forall x, In x l -> P x <-> Q x) -> filter P l = filter Q l.
Proof.
  induction l as [|x l IH]; intros Hx; [reflexivity|].
  assert (IH' : filter P l = filter Q l) by (apply IH; intros; apply Hx; right; auto).
  destruct (decide (P x)) as [HP|HP].
  - rewrite !filter_cons_True; [congruence|apply Hx; [left; auto|auto]|auto].
  - rewrite !filter_cons_False; [congruence|rewrite <- Hx; [auto|left; auto]|auto].
Qed.
Lemma list_filter_all {A} (P : A -> Prop) `{!forall x, Decision (P x)} l : (forall x, In x l -> P x) -> filter P l = l.
Proof. induction l as [|x l IH]; intros Hx; [reflexivity|]. rewrite filter_cons_True by (apply Hx; left; auto). f_equal. apply IH. intros; apply Hx; right; auto. Qed.
Lemma list_filter_none {A} (P : A -> Prop) `{!forall x, Decision (P x)} l : (forall x, In x l -> ~ P x) -> filter P l = [].
Proof. induction l as [|x l IH]; intros Hx; [reflexivity|]. rewrite filter_cons_False by (apply Hx; left; auto). apply IH. intros; apply Hx; right; auto. Qed.
