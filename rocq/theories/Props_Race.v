From stdpp Require Import base list gmap sets.
From Coq Require Import ZArith Lia.
From Verif Require Import Base GoFloat CacheModel CacheSpec CacheAbs CacheConc CacheMain ConcSafe CacheRace.
Local Open Scope Z_scope.

(** * Data races: which calls may race, and that they do

    Two goroutines race when the next operations of both touch the same plain memory ([loc] of CacheRace.v: one of the
    two dictionary pointers, or the length of a hash) and one of them writes it.  Without races the Go memory model makes
    the schedules of CacheConc.v all there is. *)
Definition race (c : lconf) (i j : nat) : Prop :=
  i <> j /\ exists (x : loc) (b1 b2 : bool), (x, b1) ∈ next_access c i /\ (x, b2) ∈ next_access c j /\ b1 || b2 = true.

(** Flush against a call that takes no lock; or two uses of the length of the hash at one key, one of them a write. *)
Definition may_race (a b : call) : Prop :=
  (a = CFlush /\ takes_lock b = false) \/ (b = CFlush /\ takes_lock a = false) \/
  exists (k : gostr) (x y : bool), len_use a = Some (k, x) /\ len_use b = Some (k, y) /\ x || y = true.

(** ** The labels are right

    A step that is not labelled with a location neither sees nor changes what is there. *)
Definition put_data (o : option (gmap gostr gval)) (w : world) : world := W o (w_exp w) (w_heap w) (w_next w) (w_writer w) (w_readers w) (w_now w).
Definition put_exp (o : option (gmap gostr Z)) (w : world) : world := W (w_data w) o (w_heap w) (w_next w) (w_writer w) (w_readers w) (w_now w).
Definition put_len (l : positive) (n : Z) (w : world) : world :=
  match w_heap w !! l with Some o => set_heap w (<[l := HObj (h_map o) n]> (w_heap w)) | None => w end.
Definition touches (b : label) (x : loc) : Prop := match b with LAcc a => exists y, (x, y) ∈ a | _ => False end.
Definition rmap {A} (u : world -> world) (r : ares A) : ares A :=
  match r with Go w a => Go (u w) a | Blocked => Blocked | Panic => Panic end.
Definition blind {A} (b : label) (f : world -> ares A) : Prop :=
  (~ touches b PData -> forall o w, f (put_data o w) = rmap (put_data o) (f w)) /\
  (~ touches b PExp -> forall o w, f (put_exp o w) = rmap (put_exp o) (f w)) /\
  (forall l, ~ touches b (PLen l) -> forall n w, (l < w_next w)%positive -> f (put_len l n w) = rmap (put_len l n) (f w)).
(** ... for every step of a program, whatever happened before *)
Fixpoint honest {R} (p : lprog R) : Prop :=
  match p with
  | LRet _ => True
  | LStep b f => blind b f /\ forall w, match f w with Go _ p' => honest p' | _ => True end
  end.
Lemma honest_bind {A B} (p : lprog A) (k : A -> lprog B) : honest p -> (forall x, honest (k x)) -> honest (lbind p k).
Proof.
  intros H Hk. induction p as [r|b f IH] using lprog_ind'; [apply Hk|]. destruct H as [(H1 & H2 & H3) H]. split.
  - split; [|split].
    + intros N o w. cbv beta. rewrite (H1 N o w). destruct (f w); reflexivity.
    + intros N o w. cbv beta. rewrite (H2 N o w). destruct (f w); reflexivity.
    + intros l N n w Hl. cbv beta. rewrite (H3 l N n w Hl). destruct (f w); reflexivity.
  - intros w. specialize (H w). cbv beta. destruct (f w) as [w' p'| |] eqn:E; [|exact I|exact I]. exact (IH _ _ _ E H).
Qed.
Lemma honest_tag {A} b (f : world -> ares A) : blind b f -> honest (tag b (atom f)).
Proof.
  intros (H1 & H2 & H3). split; [split; [|split]|].
  - intros N o w. rewrite (H1 N o w). destruct (f w); reflexivity.
  - intros N o w. rewrite (H2 N o w). destruct (f w); reflexivity.
  - intros l N n w Hl. rewrite (H3 l N n w Hl). destruct (f w); reflexivity.
  - intros w. cbn. destruct (f w); exact I.
Qed.
Lemma touch1 x y : touches (LAcc [(x, y)]) x. Proof. exists y. left. Qed.
(** a step that does not touch the heap *)
Lemma blind_plain {A} b (f : world -> ares A) :
  (~ touches b PData -> forall o w, f (put_data o w) = rmap (put_data o) (f w)) ->
  (~ touches b PExp -> forall o w, f (put_exp o w) = rmap (put_exp o) (f w)) ->
  (forall h w, f (set_heap w h) = rmap (fun w' => set_heap w' h) (f w)) ->
  (forall w w' a, f w = Go w' a -> w_heap w' = w_heap w) -> blind b f.
Proof.
  intros H1 H2 H3 H4. split; [exact H1|]. split; [exact H2|]. intros l _ n w _. unfold put_len at 1. destruct (w_heap w !! l) as [o|] eqn:E.
  - rewrite H3. destruct (f w) as [w' a| |] eqn:Ef; [|reflexivity|reflexivity]. cbn. unfold put_len. rewrite (H4 _ _ _ Ef), E. reflexivity.
  - destruct (f w) as [w' a| |] eqn:Ef; [|reflexivity|reflexivity]. cbn. unfold put_len. rewrite (H4 _ _ _ Ef), E. reflexivity.
Qed.
Ltac bp := apply honest_tag, blind_plain; [intros N o w|intros N o w|intros h w|intros w w' a]; cbn;
  try (match goal with N : ~ touches _ _ |- _ => destruct (N (touch1 _ _)) end); repeat (case_match; cbn); try congruence; try reflexivity; try (intros [= <- <-]; reflexivity); try discriminate.
Lemma o_panic {A} : honest (@l_panic A). Proof. split; [|intros; exact I]. split; [|split]; reflexivity. Qed.
Lemma o_now : honest l_p_now. Proof. bp. Qed.
Lemma o_dl k : honest (l_data_load k). Proof. bp. Qed.
Lemma o_ds k v : honest (l_data_store k v). Proof. bp. Qed.
Lemma o_dd k : honest (l_data_delete k). Proof. bp. Qed.
Lemma o_dls k v : honest (l_data_load_or_store k v). Proof. bp. Qed.
Lemma o_dk : honest l_data_keys. Proof. bp. Qed.
Lemma o_el k : honest (l_exp_load k). Proof. bp. Qed.
Lemma o_es k v : honest (l_exp_store k v). Proof. bp. Qed.
Lemma o_ed k : honest (l_exp_delete k). Proof. bp. Qed.
Lemma o_dr : honest l_data_reset. Proof. bp. Qed.
Lemma o_er : honest l_exp_reset. Proof. bp. Qed.
Lemma o_lock : honest l_p_lock. Proof. bp. Qed.
Lemma o_unlock : honest l_p_unlock. Proof. bp. Qed.
Lemma o_rlock : honest l_p_rlock. Proof. bp. Qed.
Lemma o_runlock : honest l_p_runlock. Proof. bp. Qed.
Lemma o_ha : honest l_h_alloc.
Proof.
  apply honest_tag. split; [reflexivity|]. split; [reflexivity|]. intros l _ n w Hl. cbn. unfold put_len. cbn. rewrite lookup_insert_ne by lia.
  destruct (w_heap w !! l) as [o|]; [|reflexivity]. unfold set_heap. cbn. rewrite insert_commute by lia. reflexivity.
Qed.
(** an operation on one hash *)
Lemma o_hat {A} b l (g : hobj -> hobj * A) :
  (touches b (PLen l) \/ forall m n n', fst (g (HObj m n)) = HObj (h_map (fst (g (HObj m n')))) n /\ snd (g (HObj m n)) = snd (g (HObj m n'))) ->
  honest (tag b (h_atom l g)).
Proof.
  intros Hg. apply honest_tag. split; [|split].
  - intros _ o w. cbn. destruct (w_heap w !! l) as [x|]; [|reflexivity]. destruct (g x). reflexivity.
  - intros _ o w. cbn. destruct (w_heap w !! l) as [x|]; [|reflexivity]. destruct (g x). reflexivity.
  - intros l' N n w _. destruct (w_heap w !! l') as [[m x]|] eqn:E'.
    + assert (Ep : put_len l' n w = set_heap w (<[l' := HObj m n]> (w_heap w))) by (unfold put_len; rewrite E'; reflexivity). rewrite Ep. clear Ep.
      destruct (decide (l' = l)) as [->|D].
      * destruct Hg as [Hg|Hg]; [contradiction|]. cbn. rewrite lookup_insert, E'. destruct (Hg m n x) as [G1 G2].
        destruct (g (HObj m n)) as [o1 a1], (g (HObj m x)) as [o2 a2]. cbn in *. subst. unfold put_len, set_heap. cbn. rewrite lookup_insert, !insert_insert. reflexivity.
      * cbn. rewrite lookup_insert_ne by congruence. destruct (w_heap w !! l) as [o|] eqn:E; [|reflexivity]. destruct (g o) as [o1 a]. cbn. unfold put_len, set_heap. cbn.
        rewrite lookup_insert_ne by congruence. rewrite E'. cbn. rewrite insert_commute by congruence. reflexivity.
    + assert (Ep : put_len l' n w = w) by (unfold put_len; rewrite E'; reflexivity). rewrite Ep. clear Ep.
      cbn. destruct (w_heap w !! l) as [o|] eqn:E; [|reflexivity]. destruct (g o) as [o1 a]. cbn. unfold put_len. cbn. rewrite lookup_insert_ne by congruence. rewrite E'. reflexivity.
Qed.
Lemma o_hl l f : honest (l_h_load l f). Proof. apply o_hat. right. intros; cbn; auto. Qed.
Lemma o_hs l f v : honest (l_h_store l f v). Proof. apply o_hat. right. intros; cbn; auto. Qed.
Lemma o_hd l f : honest (l_h_delete l f). Proof. apply o_hat. right. intros; cbn; auto. Qed.
Lemma o_hls l f v : honest (l_h_load_or_store l f v). Proof. apply o_hat. right. intros m n n'; cbn. destruct (m !! f); auto. Qed.
Lemma o_hk l : honest (l_h_keys l). Proof. apply o_hat. right. intros; cbn; auto. Qed.
Lemma o_hgl l : honest (l_h_get_len l). Proof. apply o_hat. left. apply touch1. Qed.
Lemma o_hsl l n : honest (l_h_set_len l n). Proof. apply o_hat. left. apply touch1. Qed.
Create HintDb hon.
Local Hint Resolve o_panic o_now o_dl o_ds o_dd o_dls o_dk o_el o_es o_ed o_dr o_er o_lock o_unlock o_rlock o_runlock o_ha o_hl o_hs o_hd o_hls o_hk o_hgl o_hsl : hon.
Ltac ho := repeat first
  [ exact I
  | solve [auto 2 with hon]
  | match goal with
    | |- honest (l_pmap _ _) => apply honest_bind; [|intros; exact I]
    | |- honest (lbind _ _) => apply honest_bind; [|intros ?]
    | |- honest (l_locked _) => unfold l_locked
    | |- honest (l_rlocked _) => unfold l_rlocked
    | |- honest (match ?x with _ => _ end) => destruct x
    end ].
Lemma o_hr l : honest (l_h_range l).
Proof. unfold l_h_range. apply honest_bind; [apply o_hk|]. intros ks. induction ks as [|k r IH]; cbn [l_h_visit]; ho. Qed.
Lemma o_expired k : honest (l_expired k). Proof. unfold l_expired. ho. Qed.
Lemma o_expires k d : honest (l_expires k d). Proof. unfold l_expires. ho. Qed.
Local Hint Resolve o_hr o_expired o_expires : hon.
Lemma o_get k : honest (l_c_get k). Proof. unfold l_c_get. ho. Qed.
Lemma o_live k : honest (l_load_live k). Proof. unfold l_load_live. ho. Qed.
Lemma o_incr k d : honest (l_incr_by k d). Proof. unfold l_incr_by. ho. Qed.
Local Hint Resolve o_get o_live o_incr : hon.
Lemma o_mset kv : honest (l_mset_loop kv). Proof. induction kv as [|[k v] r IH]; cbn [l_mset_loop]; ho. Qed.
Lemma o_msetnx kv : forall n, honest (l_msetnx_loop kv n). Proof. induction kv as [|[k v] r IH]; intros n; cbn [l_msetnx_loop]; ho. Qed.
Lemma o_mget ks : honest (l_mget_loop ks). Proof. induction ks as [|k r IH]; cbn [l_mget_loop]; ho. Qed.
Lemma o_exists ks : forall n, honest (l_exists_loop ks n). Proof. induction ks as [|k r IH]; intros n; cbn [l_exists_loop]; ho. Qed.
Lemma o_cron ks : honest (l_cron_loop ks). Proof. induction ks as [|k r IH]; cbn [l_cron_loop]; ho. Qed.
Lemma o_hget l f : honest (l_he_get l f). Proof. unfold l_he_get. ho. Qed.
Lemma o_hset l f v : honest (l_he_set l f v). Proof. unfold l_he_set. cbv zeta. ho. Qed.
Lemma o_ghe k : honest (l_get_hash_entry k). Proof. unfold l_get_hash_entry. ho. Qed.
Lemma o_gon k h : honest (l_get_or_new k h). Proof. unfold l_get_or_new, l_new_hash. ho. Qed.
Local Hint Resolve o_mset o_msetnx o_mget o_exists o_cron o_hget o_hset o_ghe o_gon : hon.
Lemma o_hdl l fs : forall n, honest (l_hdel_loop l fs n). Proof. induction fs as [|k r IH]; intros n; cbn [l_hdel_loop]; ho. Qed.
Lemma o_hms l fv : forall n, honest (l_hmset_loop l fv n). Proof. induction fv as [|[k v] r IH]; intros n; cbn [l_hmset_loop]; ho. Qed.
Lemma o_hmg h fs : honest (l_hmget_loop h fs). Proof. induction fs as [|k r IH]; cbn [l_hmget_loop]; ho. Qed.
Local Hint Resolve o_hdl o_hms o_hmg : hon.
(** C183: no call touches a location without its label *)
Theorem C183_labels (c : call) : honest (l_call c).
Proof. destruct c; cbn [l_call]; lunf; cbv zeta; ho. Qed.

(** C183: the labelled goroutines are those of CacheConc.v: the same schedules, events and caches *)
Theorem C183_schedules (w : world) (s : list act) :
  match lexec s (lstart w), cexec s (start w) with
  | Some (lc, e), Some (c, e') => e = e' /\ lc_w lc = c_w c /\ forall i, lc_th lc !! i = None <-> c_th c !! i = None
  | None, None => True
  | _, _ => False
  end.
Proof.
  pose proof (agree_exec s _ _ (agree_start w)) as H. destruct (lexec s (lstart w)) as [[lc e]|], (cexec s (start w)) as [[c e']|]; try contradiction; [|exact I].
  destruct H as (E & H1 & H2). split; [exact E|]. split; [exact H1|]. intros i. specialize (H2 i).
  destruct (lc_th lc !! i), (c_th c !! i); try contradiction; split; congruence.
Qed.

(** C183: in every execution, whoever races is inside one of these pairs of calls *)
Theorem C183_races (w : world) (s : list act) (c : lconf) (evs : list event) (i j : nat) :
  ready w -> lexec s (lstart w) = Some (c, evs) -> race c i j ->
  exists a b, inside evs i = Some a /\ inside evs j = Some b /\ may_race a b.
Proof.
  intros Hr E (Hij & x & b1 & b2 & H1 & H2 & Hb).
  destruct (rinv_start w Hr) as [O0 H0]. destruct (rinv_exec _ _ _ _ _ _ _ _ H0 E) as (h & R & O & Hinv & _ & _).
  destruct (rinv_next _ _ _ _ _ _ _ Hinv H1) as (a & La & Ea & Ha & Pa & Ka). destruct (rinv_next _ _ _ _ _ _ _ Hinv H2) as (b & Lb & Eb & Hhb & Pb & Kb).
  exists a, b. split; [exact Ea|]. split; [exact Eb|].
  assert (Hd : x = PData \/ x = PExp -> may_race a b).
  { intros Hx.
    assert (Hside : forall i j a b, i <> j -> a = CFlush -> (match place h R i with Out => takes_lock a = false | InR => a <> CFlush | InW => True end) ->
       (match place h R j with Out => takes_lock b = false | InR => b <> CFlush | InW => True end) -> takes_lock b = false).
    { clear -Hinv. intros i j a b Hij -> Hi Hj. destruct (place h R i) eqn:Ei; [discriminate Hi| |destruct (Hi eq_refl)]. apply place_W in Ei. subst h.
      destruct (place (Some i) R j) eqn:Ej; [exact Hj|apply place_W in Ej; congruence|]. apply place_R in Ej as [_ Ej].
      rewrite (ri_ex _ _ _ _ _ Hinv) in Ej by eauto. set_solver. }
    destruct b1.
    - left. assert (a = CFlush) as Hf by (destruct Hx as [-> | ->]; apply Pa; reflexivity). split; [exact Hf|]. eapply (Hside i j a b); eauto.
    - right; left. cbn in Hb. subst b2. assert (b = CFlush) as Hf by (destruct Hx as [-> | ->]; apply Pb; reflexivity). split; [exact Hf|].
      eapply (Hside j i b a); eauto. }
  destruct x as [| |l]; [auto|auto|]. right; right. cbn in Pa, Pb. destruct Pa as (Hla & k & y & Eka & Hya), Pb as (Hlb & k' & y' & Ekb & Hyb).
  assert (k = k') as <-. { pose proof (ri_inv _ _ _ _ _ Hinv) as (_ & Hf & _). eapply Hf; [exact (Ha _ Hla _ _ Eka)|exact (Hhb _ Hlb _ _ Ekb)]. }
  exists k, y, y'. split; [exact Eka|]. split; [exact Ekb|]. destruct b1, b2; cbn in Hb; try discriminate; [rewrite Hya by auto|rewrite Hya by auto|rewrite Hyb by auto]; rewrite ?orb_true_r; reflexivity.
Qed.

(** C183: two conflicting uses at any distance in an execution: either the two calls are such a pair, or the goroutine of
    the first releases the lock after its use and the goroutine of the second acquires it after that and before its own
    (so the first happens before the second) *)
Theorem C183_ordered (w : world) (s1 s2 : list act) (c1 c2 : lconf) (e1 e2 : list event) (i j : nat) (a b : call) (x : loc) (b1 b2 : bool) :
  ready w -> lexec s1 (lstart w) = Some (c1, e1) -> inside e1 i = Some a -> (x, b1) ∈ next_access c1 i ->
  lexec (ARun i :: s2) c1 = Some (c2, e2) -> inside (e1 ++ e2) j = Some b -> (x, b2) ∈ next_access c2 j ->
  i <> j -> b1 || b2 = true ->
  may_race a b \/
  exists sa sb sc ca ea cb eb, ARun i :: s2 = sa ++ ARun i :: sb ++ ARun j :: sc /\
    lexec sa c1 = Some (ca, ea) /\ releases (next_label ca i) /\
    lexec (sa ++ ARun i :: sb) c1 = Some (cb, eb) /\ acquires (next_label cb j).
Proof.
  intros Hr E1 Ia H1 E2 Ib H2 Hij Hb.
  destruct (rinv_start w Hr) as [O0 H0]. destruct (rinv_exec _ _ _ _ _ _ _ _ H0 E1) as (h & R & O & Hi1 & _ & _).
  destruct (rinv_exec _ _ _ _ _ _ _ _ Hi1 E2) as (h' & R' & O' & Hi2 & Hg & Hh). rewrite <- notes_app in Hi2. fold (inside e1) in Hi1.
  destruct (rinv_next _ _ _ _ _ _ _ Hi1 H1) as (a' & La & Ea & Ha & Pa & Ka). assert (a' = a) as -> by (unfold inside in Ia; congruence).
  destruct (rinv_next _ _ _ _ _ _ _ Hi2 H2) as (b' & Lb & Eb & Hhb & Pb & Kb). assert (b' = b) as -> by (unfold inside in Ib; congruence).
  assert (Hd : x = PData \/ x = PExp -> may_race a b \/ place h R i <> Out /\ place h' R' j <> Out /\ (place h R i = InW \/ place h' R' j = InW)).
  { intros Hx. destruct b1.
    - assert (a = CFlush) as -> by (destruct Hx as [-> | ->]; apply Pa; reflexivity).
      destruct (place h R i); [discriminate| |destruct (Ka eq_refl)]. destruct (place h' R' j); [left; left; auto|right|right]; (split; [discriminate|split; [discriminate|auto]]).
    - cbn in Hb. subst b2. assert (b = CFlush) as -> by (destruct Hx as [-> | ->]; apply Pb; reflexivity).
      destruct (place h' R' j); [discriminate| |destruct (Kb eq_refl)]. destruct (place h R i); [left; right; left; auto|right|right]; (split; [discriminate|split; [discriminate|auto]]). }
  assert (Hend : x = PData \/ x = PExp -> may_race a b \/ exists sa sb sc ca ea cb eb, ARun i :: s2 = sa ++ ARun i :: sb ++ ARun j :: sc /\
    lexec sa c1 = Some (ca, ea) /\ releases (next_label ca i) /\ lexec (sa ++ ARun i :: sb) c1 = Some (cb, eb) /\ acquires (next_label cb j)).
  { intros Hx. destruct (Hd Hx) as [X|(X1 & X2 & X3)]; [left; exact X|right]. exact (must_pass _ _ _ _ _ _ _ i j Hh Hij X1 X2 X3 (ri_ex _ _ _ _ _ Hi1)). }
  destruct x as [| |l]; [auto|auto|]. left. right; right. cbn in Pa, Pb. destruct Pa as (Hla & k & y & Eka & Hya), Pb as (Hlb & k' & y' & Ekb & Hyb).
  assert (k = k') as <-. { pose proof (ri_inv _ _ _ _ _ Hi2) as (_ & Hf & _). eapply Hf; [apply Hg; exact (Ha _ Hla _ _ Eka)|exact (Hhb _ Hlb _ _ Ekb)]. }
  exists k, y, y'. split; [exact Eka|]. split; [exact Ekb|]. destruct b1, b2; cbn in Hb; try discriminate; [rewrite Hya by auto|rewrite Hya by auto|rewrite Hyb by auto]; rewrite ?orb_true_r; reflexivity.
Qed.

Lemma inside_in (P : call -> Prop) evs : forall f, calls_in P evs -> (forall i c, f i = Some c -> P c) -> forall i c, notes evs f i = Some c -> P c.
Proof.
  induction evs as [|e r IH]; intros f Hin Hf i c E; [exact (Hf _ _ E)|]. cbn [notes] in E. eapply IH; [| |exact E].
  - intros j d Hd. eapply Hin. right. exact Hd.
  - intros j d. unfold note. destruct e as [n c'|n r'|t]; [| |apply Hf]; destruct (decide (j = n)); try apply Hf; [|discriminate].
    intros [= ->]. eapply Hin. left.
Qed.
(** C183: calls that take the lock never race with one another *)
Theorem C183_locked_free (w : world) (s : list act) (c : lconf) (evs : list event) (i j : nat) :
  ready w -> lexec s (lstart w) = Some (c, evs) -> calls_in (fun cl => takes_lock cl = true) evs -> ~ race c i j.
Proof.
  intros Hr E Hc Hx. destruct (C183_races _ _ _ _ _ _ Hr E Hx) as (a & b & Ea & Eb & H).
  pose proof (inside_in _ _ _ Hc (fun _ _ X => match eq_ind None (fun o => match o with None => True | _ => False end) I _ X with end) _ _ Ea) as Ta.
  pose proof (inside_in _ _ _ Hc (fun _ _ X => match eq_ind None (fun o => match o with None => True | _ => False end) I _ X with end) _ _ Eb) as Tb. cbv beta in *.
  destruct H as [[_ H]|[[_ H]|(k & x & y & H1 & _)]]; [congruence|congruence|]. destruct a; discriminate.
Qed.
(** C183: without Flush, and with nobody writing a hash, nothing races *)
Theorem C183_readers_free (w : world) (s : list act) (c : lconf) (evs : list event) (i j : nat) :
  ready w -> lexec s (lstart w) = Some (c, evs) -> calls_in (fun cl => cl <> CFlush /\ forall k, len_use cl <> Some (k, true)) evs -> ~ race c i j.
Proof.
  intros Hr E Hc Hx. destruct (C183_races _ _ _ _ _ _ Hr E Hx) as (a & b & Ea & Eb & H).
  pose proof (inside_in _ _ _ Hc (fun _ _ X => match eq_ind None (fun o => match o with None => True | _ => False end) I _ X with end) _ _ Ea) as [Fa Ta].
  pose proof (inside_in _ _ _ Hc (fun _ _ X => match eq_ind None (fun o => match o with None => True | _ => False end) I _ X with end) _ _ Eb) as [Fb Tb].
  destruct H as [[H _]|[[H _]|(k & x & y & H1 & H2 & H3)]]; [congruence|congruence|]. destruct x; [exact (Ta _ H1)|]. cbn in H3. subst y. exact (Tb _ H2).
Qed.

(** * C184: every one of these pairs does race *)
(** calls that are given at least one key, field or pair *)
Definition proper (c : call) : bool :=
  match c with
  | CMSet [] | CMSetNX [] | CMGet [] | CExists [] | CHDel _ [] | CHMSet _ [] => false
  | _ => true
  end.
(** some goroutines, starting with a new cache, come to a race between a call [a] and a call [b] *)
Definition can_race (a b : call) : Prop :=
  exists s c evs i j, lexec s (lstart (new_world 0)) = Some (c, evs) /\ inside evs i = Some a /\ inside evs j = Some b /\ race c i j.

(** ** running one goroutine *)
Inductive goes {R} : world -> lprog R -> world -> lprog R -> Prop :=
| goes_refl w p : goes w p w p
| goes_step w b f w1 p1 w' p' : f w = Go w1 p1 -> goes w1 p1 w' p' -> goes w (LStep b f) w' p'.
Lemma goes_trans {R} w (p : lprog R) w1 p1 w2 p2 : goes w p w1 p1 -> goes w1 p1 w2 p2 -> goes w p w2 p2.
Proof. induction 1; [auto|]. intros H2. eapply goes_step; eauto. Qed.
Lemma goes_bind {A B} w (p : lprog A) w1 p1 (k : A -> lprog B) : goes w p w1 p1 -> goes w (lbind p k) w1 (lbind p1 k).
Proof. induction 1 as [|w b f w1 p1 w' p' E H IH]; [constructor|]. eapply goes_step; [cbv beta; rewrite E; reflexivity|exact IH]. Qed.
Lemma goes_seq {A B} w (p : lprog A) w1 r (k : A -> lprog B) w2 q : goes w p w1 (LRet r) -> goes w1 (k r) w2 q -> goes w (lbind p k) w2 q.
Proof. intros H1 H2. eapply goes_trans; [eapply goes_bind, H1|]. exact H2. Qed.
Lemma goes_atom {A} w b (f : world -> ares A) w' r : f w = Go w' r -> goes w (tag b (atom f)) w' (LRet r).
Proof. intros E. eapply goes_step; [cbn; rewrite E; reflexivity|constructor]. Qed.

(** the hash of key [k], at address [l], holds [m]; no deadline *)
Definition at_hash (k : gostr) (l : positive) (m : gmap gostr gval) (w : world) : Prop :=
  exists d e n, w_data w = Some d /\ d !! k = Some (VHash l) /\ w_exp w = Some e /\ e !! k = None /\ w_heap w !! l = Some (HObj m n).
Lemma g_entry (k : gostr) (l : positive) (m : gmap gostr gval) (w : world) : at_hash k l m w -> goes w (l_get_hash_entry k) w (LRet (HEntry l)).
Proof.
  intros (d & e & n & Ed & Hk & Ee & He & Hl). unfold l_get_hash_entry.
  apply (goes_seq _ _ w (Some (VHash l))); [|constructor]. unfold l_c_get. eapply goes_seq; [apply goes_atom; rewrite Ed, Hk; reflexivity|]. cbv beta iota.
  apply (goes_seq _ _ w false); [|constructor]. unfold l_expired. eapply goes_seq; [apply goes_atom; rewrite Ee, He; reflexivity|]. constructor.
Qed.
Lemma g_hat {A : Type} (k : gostr) (l : positive) (m : gmap gostr gval) (w : world) (b : label) (g : hobj -> hobj * A) (m' : gmap gostr gval) (a : A) : at_hash k l m w ->
  (forall n, exists n', g (HObj m n) = (HObj m' n', a)) -> exists w', at_hash k l m' w' /\ goes w (tag b (h_atom l g)) w' (LRet a).
Proof.
  intros (d & e & n & Ed & Hk & Ee & He & Hl) Hg. destruct (Hg n) as [n' E]. exists (set_heap w (<[l := HObj m' n']> (w_heap w))). split.
  - exists d, e, n'. cbn. rewrite lookup_insert. auto.
  - apply goes_atom. rewrite Hl, E. reflexivity.
Qed.
Lemma g_getlen (k : gostr) (l : positive) (m : gmap gostr gval) (w : world) : at_hash k l m w -> exists w' n, at_hash k l m w' /\ goes w (l_h_get_len l) w' (LRet n).
Proof.
  intros (d & e & n & Ed & Hk & Ee & He & Hl). exists (set_heap w (<[l := HObj m n]> (w_heap w))), n. split.
  - exists d, e, n. cbn. rewrite lookup_insert. auto.
  - apply goes_atom. rewrite Hl. reflexivity.
Qed.
Lemma g_setlen (k : gostr) (l : positive) (m : gmap gostr gval) (w : world) (x : Z) : at_hash k l m w -> exists w', at_hash k l m w' /\ goes w (l_h_set_len l x) w' (LRet tt).
Proof. intros H. eapply g_hat; [exact H|]. intros n. eexists. reflexivity. Qed.
Lemma g_load (k : gostr) (l : positive) (m : gmap gostr gval) (w : world) (f : gostr) : at_hash k l m w -> exists w', at_hash k l m w' /\ goes w (l_h_load l f) w' (LRet (m !! f)).
Proof. intros H. eapply g_hat; [exact H|]. intros n. eexists. reflexivity. Qed.
Lemma g_heget (k : gostr) (l : positive) (m : gmap gostr gval) (w : world) (f : gostr) : at_hash k l m w -> exists w' v, at_hash k l m w' /\ goes w (l_he_get l f) w' (LRet v) /\ (v = None <-> m !! f = None).
Proof.
  intros H. destruct (g_load _ _ _ _ f H) as (w' & H' & G). exists w'. eexists. split; [exact H'|]. split; [eapply goes_seq; [exact G|constructor]|].
  destruct (m !! f); split; congruence.
Qed.
Lemma g_delete (k : gostr) (l : positive) (m : gmap gostr gval) (w : world) (f : gostr) : at_hash k l m w -> exists w', at_hash k l (delete f m) w' /\ goes w (l_h_delete l f) w' (LRet tt).
Proof. intros H. eapply g_hat; [exact H|]. intros n. eexists. reflexivity. Qed.
Lemma g_los (k : gostr) (l : positive) (m : gmap gostr gval) (w : world) (f : gostr) v : at_hash k l m w -> exists w' (m' : gmap gostr gval) r, at_hash k l m' w' /\ goes w (l_h_load_or_store l f v) w' (LRet r) /\
  m' !! f <> None /\ (m !! f = None -> snd r = false).
Proof.
  intros H. destruct (m !! f) as [x|] eqn:E.
  - destruct (g_hat k l m w (LAcc []) (fun o => match h_map o !! f with Some x => (o, (x, true)) | None => (HObj (<[f:=v]> (h_map o)) (h_len o), (v, false)) end) m (x, true) H) as (w' & H' & G).
    { intros n. cbn. rewrite E. eexists. reflexivity. }
    exists w', m, (x, true). split; [exact H'|]. split; [exact G|]. split; congruence.
  - destruct (g_hat k l m w (LAcc []) (fun o => match h_map o !! f with Some x => (o, (x, true)) | None => (HObj (<[f:=v]> (h_map o)) (h_len o), (v, false)) end) (<[f:=v]> m) (v, false) H) as (w' & H' & G).
    { intros n. cbn. rewrite E. eexists. reflexivity. }
    exists w', (<[f:=v]> m), (v, false). split; [exact H'|]. split; [exact G|]. split; [rewrite lookup_insert; discriminate|auto].
Qed.
(** hashEntry.set comes to the length, and after that to the end *)
Lemma g_heset (k : gostr) (l : positive) (m : gmap gostr gval) (w : world) (f : gostr) v : at_hash k l m w -> exists w' (m' : gmap gostr gval) q, at_hash k l m' w' /\ m' !! f <> None /\
  goes w (l_he_set l f v) w' (lbind (l_h_get_len l) q) /\ forall n, exists x y, q n = lbind (l_h_set_len l x) (fun _ => LRet y).
Proof.
  intros H. destruct (g_los _ _ _ _ f (try_int64 v) H) as (w1 & m1 & r & H1 & G1 & Hf & _). unfold l_he_set.
  assert (exists w2 (m2 : gmap gostr gval), at_hash k l m2 w2 /\ m2 !! f <> None /\ goes w1 (if snd r then l_h_store l f (try_int64 v) else LRet tt) w2 (LRet tt)) as (w2 & m2 & H2 & Hf2 & G2).
  { destruct (snd r); [|exists w1, m1; split; [exact H1|split; [exact Hf|constructor]]].
    destruct (g_hat k l m1 w1 (LAcc []) (fun o => (HObj (<[f:=try_int64 v]> (h_map o)) (h_len o), tt)) (<[f:=try_int64 v]> m1) tt H1) as (w2 & H2 & G2).
    { intros n. eexists. reflexivity. }
    exists w2, (<[f:=try_int64 v]> m1). split; [exact H2|]. split; [rewrite lookup_insert; discriminate|exact G2]. }
  exists w2, m2. eexists. split; [exact H2|]. split; [exact Hf2|]. split.
  - eapply goes_seq; [exact G1|]. cbv beta zeta. eapply goes_seq; [exact G2|]. cbv beta. constructor.
  - intros n. cbv beta. eauto.
Qed.
Lemma g_lenend {A : Type} (k : gostr) (l : positive) (m : gmap gostr gval) (w : world) (q : Z -> lprog A) : at_hash k l m w -> (forall n, exists x y, q n = lbind (l_h_set_len l x) (fun _ => LRet y)) ->
  exists w' r, at_hash k l m w' /\ goes w (lbind (l_h_get_len l) q) w' (LRet r).
Proof.
  intros H Hq. destruct (g_getlen _ _ _ _ H) as (w1 & n & H1 & G1). destruct (Hq n) as (x & y & E). destruct (g_setlen _ _ _ _ x H1) as (w2 & H2 & G2).
  exists w2, y. split; [exact H2|]. eapply goes_seq; [exact G1|]. rewrite E. eapply goes_seq; [exact G2|]. constructor.
Qed.
Lemma g_hdel (k : gostr) (l : positive) (w : world) (fs : list gostr) : forall n (m : gmap gostr gval), at_hash k l m w -> exists w' (m' : gmap gostr gval) n', at_hash k l m' w' /\ goes w (l_hdel_loop l fs n) w' (LRet n') /\
  n <= n' /\ (forall f r, fs = f :: r -> m !! f <> None -> n < n') /\ (forall f, fs = [f] -> m' !! f = None).
Proof.
  revert w. induction fs as [|f r IH]; intros w n m H.
  - exists w, m, n. split; [exact H|]. split; [constructor|]. split; [lia|]. split; discriminate.
  - destruct (g_heget _ _ _ _ f H) as (w1 & v & H1 & G1 & Hv). destruct v as [v|].
    + destruct (g_delete _ _ _ _ f H1) as (w2 & H2 & G2). destruct (IH w2 (n + 1) _ H2) as (w3 & m3 & n3 & H3 & G3 & Hn & _ & _).
      exists w3, m3, n3. split; [exact H3|]. split; [|split; [lia|split; [intros; lia|]]].
      * cbn [l_hdel_loop]. eapply goes_seq; [exact G1|]. cbv beta. eapply goes_seq; [exact G2|]. exact G3.
      * intros f' [= <- ->]. cbn [l_hdel_loop] in G3. inversion G3; subst. destruct H2 as (d & e & x & _ & _ & _ & _ & Hl), H3 as (d' & e' & x' & _ & _ & _ & _ & Hl').
        rewrite Hl in Hl'. injection Hl' as <- <-. apply lookup_delete.
    + destruct (IH w1 n _ H1) as (w3 & m3 & n3 & H3 & G3 & Hn & _ & _). assert (Hf : m !! f = None) by (apply Hv; reflexivity).
      exists w3, m3, n3. split; [exact H3|]. split; [|split; [lia|split]].
      * cbn [l_hdel_loop]. eapply goes_seq; [exact G1|]. exact G3.
      * intros f' r' [= <- <-]. congruence.
      * intros f' [= <- ->]. cbn [l_hdel_loop] in G3. inversion G3; subst. destruct H1 as (d & e & x & _ & _ & _ & _ & Hl), H3 as (d' & e' & x' & _ & _ & _ & _ & Hl').
        rewrite Hl in Hl'. injection Hl' as <- <-. exact Hf.
Qed.

(** ** goroutines *)
Lemma lexec_app s1 : forall s2 c c1 e1 c2 e2, lexec s1 c = Some (c1, e1) -> lexec s2 c1 = Some (c2, e2) -> lexec (s1 ++ s2) c = Some (c2, e1 ++ e2).
Proof.
  induction s1 as [|a r IH]; intros s2 c c1 e1 c2 e2 E1 E2; cbn in *; [injection E1 as -> <-; exact E2|].
  destruct (lstep a c) as [[c' e]|]; [|discriminate]. destruct (lexec r c') as [[c'' e'']|] eqn:E; [|discriminate]. injection E1 as -> <-.
  rewrite (IH _ _ _ _ _ _ E E2), app_assoc. reflexivity.
Qed.
Lemma goes_exec w (p : lprog reply) w' p' : goes w p w' p' -> forall i th, th !! i = Some p -> exists s, lexec s (LConf w th) = Some (LConf w' (<[i := p']> th), []).
Proof.
  induction 1 as [|w b f w1 p1 w' p' E H IH]; intros i th Ei.
  - exists []. rewrite insert_id by exact Ei. reflexivity.
  - destruct (IH i (<[i := p1]> th)) as [s Es]; [apply lookup_insert|]. exists (ARun i :: s). cbn. rewrite Ei, E, Es. rewrite insert_insert. reflexivity.
Qed.
Lemma part w cl w' p' i th : goes w (l_call cl) w' p' -> th !! i = None -> exists s, lexec s (LConf w th) = Some (LConf w' (<[i := p']> th), [EInv i cl]).
Proof.
  intros G Ei. destruct (goes_exec _ _ _ _ G i (<[i := l_call cl]> th)) as [s Es]; [apply lookup_insert|]. exists (AInv i cl :: s).
  cbn. rewrite Ei, Es, insert_insert. reflexivity.
Qed.
Lemma whole w cl w' r i th : goes w (l_call cl) w' (LRet r) -> th !! i = None -> exists s, lexec s (LConf w th) = Some (LConf w' th, [EInv i cl; ERet i r]).
Proof.
  intros G Ei. destruct (part _ _ _ _ _ _ G Ei) as [s Es]. exists (s ++ [ARet i]). change [EInv i cl; ERet i r] with ([EInv i cl] ++ [ERet i r]).
  eapply lexec_app; [exact Es|]. cbn. rewrite lookup_insert, delete_insert by exact Ei. reflexivity.
Qed.

(** ** every use of the length is reached *)
Definition fit (c : call) (m : gmap gostr gval) : Prop :=
  match c with
  | CHSetNX _ f _ | CHIncrBy _ f _ | CHIncrByFloat _ f _ => m !! f = None
  | CHDel _ (f :: _) => m !! f <> None
  | _ => True
  end.
Definition prep (k : gostr) (c : call) : call :=
  match c with
  | CHSetNX _ f _ | CHIncrBy _ f _ | CHIncrByFloat _ f _ => CHDel k [f]
  | CHDel _ (f :: _) => CHSet k f []
  | _ => CHLen k
  end.
Ltac gentry H := eapply (goes_seq _ _ _ _ _ _ _); [eapply g_entry, H|]; cbv beta iota.
Lemma g_prep (k : gostr) (c : call) (l : positive) (m : gmap gostr gval) (w : world) : at_hash k l m w -> exists w' (m' : gmap gostr gval) r, at_hash k l m' w' /\ fit c m' /\ goes w (l_call (prep k c)) w' (LRet r).
Proof.
  intros H.
  assert (Hd : forall f, exists w' (m' : gmap gostr gval) r, at_hash k l m' w' /\ m' !! f = None /\ goes w (l_call (CHDel k [f])) w' (LRet r)).
  { intros f. destruct (g_hdel k l w [f] 0 m H) as (w1 & m1 & n1 & H1 & G1 & Hn & _ & Hf). specialize (Hf f eq_refl).
    destruct (decide (n1 = 0)) as [->|N].
    - exists w1, m1. eexists. split; [exact H1|]. split; [exact Hf|]. cbn [l_call]. eapply goes_seq; [|constructor]. unfold l_m_hdel. gentry H.
      eapply goes_seq; [exact G1|]. cbv beta. rewrite Z.eqb_refl. cbn [lbind]. constructor.
    - destruct (g_getlen _ _ _ _ H1) as (w2 & x & H2 & G2). destruct (g_setlen _ _ _ _ (wrap64 (x - n1)) H2) as (w3 & H3 & G3).
      exists w3, m1. eexists. split; [exact H3|]. split; [exact Hf|]. cbn [l_call]. eapply goes_seq; [|constructor]. unfold l_m_hdel. gentry H.
      eapply goes_seq; [exact G1|]. cbv beta. destruct (Z.eqb_spec n1 0); [contradiction|]. eapply goes_seq; [|constructor]. eapply goes_seq; [exact G2|]. exact G3. }
  assert (Hs : forall f, exists w' (m' : gmap gostr gval) r, at_hash k l m' w' /\ m' !! f <> None /\ goes w (l_call (CHSet k f [])) w' (LRet r)).
  { intros f. destruct (g_heset _ _ _ _ f [] H) as (w1 & m1 & q & H1 & Hf & G1 & Hq). destruct (g_lenend _ _ _ _ _ H1 Hq) as (w2 & r & H2 & G2).
    exists w2, m1. eexists. split; [exact H2|]. split; [exact Hf|]. cbn [l_call]. eapply goes_seq; [|constructor]. unfold l_m_hset. gentry H.
    eapply goes_seq; [constructor|]. cbv beta. eapply goes_seq; [eapply goes_trans; [exact G1|exact G2]|]. constructor. }
  assert (Hl : exists w' (m' : gmap gostr gval) r, at_hash k l m' w' /\ goes w (l_call (CHLen k)) w' (LRet r)).
  { destruct (g_getlen _ _ _ _ H) as (w2 & x & H2 & G2). exists w2, m. eexists. split; [exact H2|]. cbn [l_call]. eapply goes_seq; [|constructor]. unfold l_m_hlen. gentry H.
    eapply goes_seq; [exact G2|]. constructor. }
  destruct Hl as (wl & ml & rl & Hl1 & Hl2).
  destruct c; cbn [prep fit]; try (exists wl, ml, rl; split; [exact Hl1|]; split; [exact I|exact Hl2]); try apply Hd.
  destruct fs as [|f fs]; [exists wl, ml, rl; split; [exact Hl1|]; split; [exact I|exact Hl2]|apply Hs].
Qed.

(** [c] comes to read the length; if it is one of the writers, its next operation after that writes it *)
Lemma g_reach (k : gostr) (b : bool) (c : call) (l : positive) (m : gmap gostr gval) (w : world) : len_use c = Some (k, b) -> proper c = true -> at_hash k l m w -> fit c m ->
  exists w' (m' : gmap gostr gval) f, at_hash k l m' w' /\ goes w (l_call c) w' (LStep (rd (PLen l)) f) /\
    (b = true -> exists w2 (m2 : gmap gostr gval) f2, at_hash k l m2 w2 /\ f w' = Go w2 (LStep (wr (PLen l)) f2)).
Proof.
  intros El Hp H Hfit.
  assert (Hfin : forall A (q : Z -> lprog A) (g : A -> lprog reply) w1 (m1 : gmap gostr gval), at_hash k l m1 w1 -> (forall n, exists x k', q n = lbind (l_h_set_len l x) k') ->
     goes w (l_call c) w1 (lbind (lbind (l_h_get_len l) q) g) ->
     exists w' (m' : gmap gostr gval) f, at_hash k l m' w' /\ goes w (l_call c) w' (LStep (rd (PLen l)) f) /\
       (b = true -> exists w2 (m2 : gmap gostr gval) f2, at_hash k l m2 w2 /\ f w' = Go w2 (LStep (wr (PLen l)) f2))).
  { intros A q g w1 m1 H1 Hq G. exists w1, m1. eexists. split; [exact H1|]. split; [exact G|]. intros _.
    destruct H1 as (d & e & n & Ed & Hk & Ee & He & Hl). destruct (Hq n) as (x & k' & Eq). cbn. rewrite Hl. cbn. rewrite Eq. cbn.
    do 3 eexists. split; [|reflexivity]. exists d, e, n. cbn. rewrite lookup_insert. auto. }
  assert (Hset : forall A (k0 : Z -> lprog A) (g : A -> lprog reply) f v w0 (m0 : gmap gostr gval), at_hash k l m0 w0 -> goes w (l_call c) w0 (lbind (lbind (l_he_set l f v) k0) g) ->
     exists w' (m' : gmap gostr gval) f, at_hash k l m' w' /\ goes w (l_call c) w' (LStep (rd (PLen l)) f) /\
       (b = true -> exists w2 (m2 : gmap gostr gval) f2, at_hash k l m2 w2 /\ f w' = Go w2 (LStep (wr (PLen l)) f2))).
  { intros A k0 g f v w0 m0 H0 G. destruct (g_heset _ _ _ _ f v H0) as (w1 & m1 & q & H1 & _ & G1 & Hq).
    exists w1, m1. eexists. split; [exact H1|]. split; [eapply goes_trans; [exact G|]; exact (goes_bind _ _ _ _ _ (goes_bind _ _ _ _ _ G1))|]. intros _.
    destruct H1 as (d & e & n & Ed & Hk & Ee & He & Hl). destruct (Hq n) as (x & y & Eq). cbn. rewrite Hl. cbn. rewrite Eq. cbn.
    do 3 eexists. split; [|reflexivity]. exists d, e, n. cbn. rewrite lookup_insert. auto. }
  destruct c; try discriminate El; injection El as -> <-; cbn [l_call] in *; unfold l_pmap in *; cbn [fit] in Hfit.
  - eapply Hset; [exact H|]. apply goes_bind. unfold l_m_hset. gentry H. constructor.
  - destruct (g_los _ _ _ _ f (VStr v) H) as (w1 & m1 & r & H1 & G1 & _ & Hr). specialize (Hr Hfit). eapply Hfin; [exact H1| |].
    2: { apply goes_bind. unfold l_m_hsetnx. gentry H. eapply goes_seq; [constructor|]. cbv beta. eapply goes_seq; [exact G1|]. cbv beta. rewrite Hr. constructor. }
    intros n. eauto.
  - destruct (g_heget _ _ _ _ f H) as (w1 & v & H1 & G1 & _). eapply Hfin; [exact H1| |].
    2: { apply goes_bind. unfold l_m_hexists. gentry H. eapply goes_seq; [exact G1|]. cbv beta zeta. constructor. }
    intros n. eauto.
  - destruct fs as [|f fs]; [discriminate|]. destruct (g_hdel k l w (f :: fs) 0 m H) as (w1 & m1 & n1 & H1 & G1 & _ & Hn & _). specialize (Hn f fs eq_refl Hfit).
    exists w1, m1. eexists. split; [exact H1|]. split.
    { apply (goes_bind _ _ _ (lbind (lbind (l_h_get_len l) (fun len => l_h_set_len l (wrap64 (len - n1)))) (fun _ => LRet (n1, None)))).
      unfold l_m_hdel. gentry H. eapply goes_seq; [exact G1|]. cbv beta. destruct (Z.eqb_spec n1 0); [lia|]. constructor. }
    intros _. destruct H1 as (d & e & n & Ed & Hk & Ee & He & Hl). cbn. rewrite Hl. cbn.
    do 3 eexists. split; [|reflexivity]. exists d, e, n. cbn. rewrite lookup_insert. auto.
  - exists w, m. eexists. split; [exact H|]. split; [|discriminate]. eapply (goes_bind _ _ _ (lbind (l_h_get_len l) (fun n => LRet (n, @None goerr)))).
    unfold l_m_hlen. gentry H. constructor.
  - destruct (g_load _ _ _ _ f H) as (w1 & H1 & G1). rewrite Hfit in G1. eapply Hset; [exact H1|]. apply goes_bind. unfold l_m_hincrby. gentry H.
    eapply goes_seq; [constructor|]. cbv beta. eapply goes_seq; [exact G1|]. cbv beta iota. constructor.
  - destruct (g_load _ _ _ _ f H) as (w1 & H1 & G1). rewrite Hfit in G1. eapply Hset; [exact H1|]. apply goes_bind. unfold l_m_hincrbyfloat. gentry H.
    eapply goes_seq; [constructor|]. cbv beta. eapply goes_seq; [exact G1|]. cbv beta iota. constructor.
  - destruct fv as [|[f v] fv]; [discriminate|]. destruct (g_heset _ _ _ _ f v H) as (w1 & m1 & q & H1 & _ & G1 & Hq).
    exists w1, m1. eexists. split; [exact H1|]. split.
    { assert (G : goes w (lbind (l_m_hmset k ((f, v) :: fv)) (fun x => LRet (RInt x))) w1
        (lbind (lbind (lbind (lbind (l_h_get_len l) q) (fun x => l_hmset_loop l fv (0 + x))) (fun n => LRet (n, None))) (fun x => LRet (RInt x)))).
      { apply goes_bind. unfold l_m_hmset. gentry H. eapply goes_seq; [constructor|]. cbv beta. cbn [l_hmset_loop]. apply goes_bind, goes_bind, G1. }
      exact G. }
    intros _. destruct H1 as (d & e & n & Ed & Hk & Ee & He & Hl). destruct (Hq n) as (x & y & Eq). cbn. rewrite Hl. cbn. rewrite Eq. cbn.
    do 3 eexists. split; [|reflexivity]. exists d, e, n. cbn. rewrite lookup_insert. auto.
Qed.
Lemma g_first (k : gostr) : exists w (m : gmap gostr gval) (r : reply), at_hash k 1 m w /\ goes (new_world 0) (l_call (CHSet k [] [])) w (LRet r).
Proof.
  set (w1 := W (Some {[k := VHash 1]}) (Some ∅) {[1%positive := HObj ∅ 0]} 2 false 0 0).
  assert (H1 : at_hash k 1 ∅ w1) by (exists {[k := VHash 1]}, ∅, 0; cbn; rewrite !lookup_singleton, lookup_empty; auto).
  destruct (g_heset _ _ _ _ [] [] H1) as (w2 & m2 & q & H2 & _ & G2 & Hq). destruct (g_lenend _ _ _ _ _ H2 Hq) as (w3 & r & H3 & G3).
  exists w3, m2. eexists. split; [exact H3|]. cbn [l_call]. eapply goes_seq; [|constructor]. unfold l_m_hset. eapply (goes_seq _ _ (new_world 0) HNil).
  { unfold l_get_hash_entry. apply (goes_seq _ _ (new_world 0) None); [|constructor]. unfold l_c_get. eapply goes_seq; [apply goes_atom; cbn; rewrite lookup_empty; reflexivity|]. constructor. }
  cbv beta iota. eapply (goes_seq _ _ w1 1%positive).
  { unfold l_get_or_new, l_new_hash. eapply goes_seq; [apply goes_atom; reflexivity|]. eapply goes_seq; [apply goes_atom; reflexivity|]. constructor. }
  cbv beta. eapply goes_seq; [eapply goes_trans; [exact G2|exact G3]|]. constructor.
Qed.

Lemma can_race_sym a b : can_race a b -> can_race b a.
Proof.
  intros (s & c & evs & i & j & E & Ha & Hb & Hij & x & b1 & b2 & H1 & H2 & H). exists s, c, evs, j, i. split; [exact E|]. split; [exact Hb|]. split; [exact Ha|].
  split; [congruence|]. exists x, b2, b1. rewrite orb_comm. auto.
Qed.
Lemma race_flush b : proper b = true -> takes_lock b = false -> can_race CFlush b.
Proof.
  intros Hp Ht. exists [AInv 0 CFlush; ARun 0; AInv 1 b]. do 2 eexists. exists 0%nat, 1%nat. split; [reflexivity|]. split; [reflexivity|]. split; [reflexivity|].
  split; [discriminate|]. exists PData, true, false. split; [left|]. split; [|reflexivity].
  destruct b; try discriminate Ht; try (destruct kv as [|[? ?] ?]; [discriminate Hp|]); try (destruct ks as [|? ?]; [discriminate Hp|]); left.
Qed.
Lemma race_len (k : gostr) a b y : proper a = true -> proper b = true -> len_use a = Some (k, true) -> len_use b = Some (k, y) -> can_race a b.
Proof.
  intros Pa Pb Ea Eb.
  destruct (g_first k) as (w0 & m0 & r0 & H0 & G0). destruct (whole _ _ _ _ 2%nat ∅ G0 (lookup_empty _)) as [s0 X0].
  destruct (g_prep _ a _ _ _ H0) as (w1 & m1 & r1 & H1 & F1 & G1). destruct (whole _ _ _ _ 2%nat ∅ G1 (lookup_empty _)) as [s1 X1].
  destruct (g_reach _ _ _ _ _ _ Ea Pa H1 F1) as (w2 & m2 & f2 & H2 & G2 & K). destruct (K eq_refl) as (w3 & m3 & f3 & H3 & E3). clear K.
  assert (G3 : goes w1 (l_call a) w3 (LStep (wr (PLen 1)) f3)) by (eapply goes_trans; [exact G2|]; eapply goes_step; [exact E3|constructor]).
  destruct (part _ _ _ _ 0%nat ∅ G3 (lookup_empty _)) as [s3 X3].
  destruct (g_prep _ b _ _ _ H3) as (w4 & m4 & r4 & H4 & F4 & G4).
  destruct (whole _ _ _ _ 2%nat (<[0%nat := LStep (wr (PLen 1)) f3]> ∅) G4) as [s4 X4]; [reflexivity|].
  destruct (g_reach _ _ _ _ _ _ Eb Pb H4 F4) as (w5 & m5 & f5 & H5 & G5 & _).
  destruct (part _ _ _ _ 1%nat (<[0%nat := LStep (wr (PLen 1)) f3]> ∅) G5) as [s5 X5]; [reflexivity|].
  pose proof (lexec_app _ _ _ _ _ _ _ X0 (lexec_app _ _ _ _ _ _ _ X1 (lexec_app _ _ _ _ _ _ _ X3 (lexec_app _ _ _ _ _ _ _ X4 X5)))) as X.
  do 3 eexists. exists 0%nat, 1%nat. split; [exact X|]. split; [reflexivity|]. split; [reflexivity|]. split; [discriminate|].
  exists (PLen 1), true, false. split; [left|]. split; [left|reflexivity].
Qed.

(** C184: for calls that name at least one key, field or pair: a race between [a] and [b] is possible exactly for the
    pairs of C183 *)
Theorem C184_exact (a b : call) : proper a = true -> proper b = true -> (can_race a b <-> may_race a b).
Proof.
  intros Pa Pb. split.
  - intros (s & c & evs & i & j & E & Ha & Hb & Hr). destruct (C183_races (new_world 0) s c evs i j (ready_new 0) E Hr) as (a' & b' & Ea & Eb & H). congruence.
  - intros [[-> H]|[[-> H]|(k & x & y & H1 & H2 & H3)]]; [apply race_flush; assumption|apply can_race_sym, race_flush; assumption|].
    destruct x; [eapply race_len; eassumption|]. cbn in H3. subst y. apply can_race_sym. eapply race_len; eassumption.
Qed.

(** ** The hypotheses are met *)
(** two goroutines, Flush after Get: the use of the dictionary by Get comes before, the lock changes hands *)
Definition hand_over : list act := [AInv 0 (CGet (bs "k")); AInv 1 CFlush; ARun 0].
Example C183_hyps : match lexec hand_over (lstart (new_world 0)) with
  | Some (c1, e1) => next_access c1 0 = [(PData, false)] /\ inside e1 0 = Some (CGet (bs "k")) /\
      match lexec [ARun 0; ARun 0; ARun 1]%nat c1 with
      | Some (c2, e2) => next_access c2 1 = [(PData, true)] /\ inside (e1 ++ e2) 1 = Some CFlush
      | None => False
      end
  | None => False
  end.
Proof. vm_compute. auto. Qed.
Example C183_hand_over : exists c1 e1 c2 e2, lexec hand_over (lstart (new_world 0)) = Some (c1, e1) /\ lexec [ARun 0; ARun 0]%nat c1 = Some (c2, e2) /\
  releases (match lexec [ARun 0]%nat c1 with Some (c, _) => next_label c 0 | None => None end) /\ acquires (next_label c2 1).
Proof. do 4 eexists. split; [reflexivity|]. split; [reflexivity|]. split; [right; reflexivity|left; reflexivity]. Qed.
Example C183_locked_hyps : exists c evs, lexec hand_over (lstart (new_world 0)) = Some (c, evs) /\ calls_in (fun cl => takes_lock cl = true) evs /\ next_access c 0 <> [].
Proof.
  do 2 eexists. split; [reflexivity|]. split; [|discriminate]. intros i cl H. cbn in H.
  apply elem_of_cons in H as [[= -> ->]|H]; [reflexivity|]. apply elem_of_cons in H as [[= -> ->]|H]; [reflexivity|]. apply elem_of_nil in H as [].
Qed.
Example C184_pairs (k f : gostr) : can_race (CHSet k f f) (CHLen k) /\ can_race (CHExists k f) (CHExists k f) /\ can_race CFlush (CHGet k f) /\
  ~ can_race (CHLen k) (CHLen k) /\ ~ can_race (CSet k f) CFlush /\ ~ can_race (CHGet k f) (CHSet k f f).
Proof.
  split; [|split; [|split; [|split; [|split]]]].
  - apply C184_exact; [reflexivity|reflexivity|]. right; right. exists k, true, false. auto.
  - apply C184_exact; [reflexivity|reflexivity|]. right; right. exists k, true, true. auto.
  - apply C184_exact; [reflexivity|reflexivity|]. left. auto.
  - intros H. apply C184_exact in H; [|reflexivity|reflexivity]. destruct H as [[H _]|[[H _]|(k' & x & y & H1 & H2 & H3)]]; [discriminate|discriminate|].
    injection H1 as <- <-. injection H2 as <-. discriminate.
  - intros H. apply C184_exact in H; [|reflexivity|reflexivity]. destruct H as [[H _]|[[_ H]|(k' & x & y & H1 & H2 & H3)]]; discriminate.
  - intros H. apply C184_exact in H; [|reflexivity|reflexivity]. destruct H as [[H _]|[[H _]|(k' & x & y & H1 & H2 & H3)]]; discriminate.
Qed.
(** [C183_labels] can fail: reading the length without the label *)
Example C183_labels_bite : ~ honest (tag (LAcc []) (h_get_len 1)).
Proof.
  intros [(_ & _ & H) _]. specialize (H 1%positive).
  assert (N : ~ touches (LAcc []) (PLen 1)) by (intros [y Hy]; apply elem_of_nil in Hy as []).
  specialize (H N 5 (W (Some ∅) (Some ∅) {[1%positive := HObj ∅ 0]} 2 false 0 0) eq_refl). vm_compute in H. discriminate.
Qed.
