(** * Props_Conc2: what many goroutines may rely on: tickets, winners, hand-overs (C143-C147)

    The calls are issued concurrently in any way, under any schedule, and the clock moves at will. *)
From stdpp Require Import relations.
From Verif Require Import Base GoFloat CacheModel CacheSpec CacheAbs CacheRefine CacheRefineH CacheMain CacheLib CacheConc ConcLin Props_String Props_Counter Props_Conc.

(** ** Vocabulary *)
(** which call got which reply, in the order of the returns *)
Definition track (x : gmap nat call * list (call * reply)) (e : event) : gmap nat call * list (call * reply) :=
  match e with
  | EInv i c => (<[i := c]> (fst x), snd x)
  | ERet i r => match fst x !! i with Some c => (delete i (fst x), snd x ++ [(c, r)]) | None => x end
  | ETick _ => x
  end.
Definition answered (evs : list event) : list (call * reply) := snd (foldl track (∅, []) evs).
(** The calls are those that take the lock; or, in a cache without deadlines, also those that only look at one key. *)
Definition serial (w0 : world) (evs : list event) : Prop :=
  calls_in takes_lock evs \/ ((forall k, deadline w0 k = None) /\ calls_in no_duration evs).
(** calls that only look at the key *)
Definition looks (k : gostr) (c : call) : Prop :=
  c = CGet k \/ c = CStrLen k \/ c = CType k \/ exists a b, c = CGetRange k a b.

(** ** From concurrent to sequential *)
Definition lin_pairs (A : list item) : list (call * reply) :=
  omap (fun x => match x with ILin _ _ c r => Some (c, r) | _ => None end) A.
Definition decided (m : gmap nat tst) (cur : gmap nat call) : list (call * reply) :=
  omap (fun x => match snd x, cur !! fst x with Decided r, Some c => Some (c, r) | _, _ => None end) (map_to_list m).
Lemma decided_insert m cur i s : m !! i = None -> decided (<[i := s]> m) cur ≡ₚ match s, cur !! i with Decided r, Some c => [(c, r)] | _, _ => [] end ++ decided m cur.
Proof. intros H. unfold decided. rewrite map_to_list_insert by exact H. cbn [omap list_omap fst snd]. destruct s; [reflexivity|]. destruct (cur !! i); reflexivity. Qed.
Lemma decided_cur m cur i x : m !! i = None -> decided m (<[i := x]> cur) = decided m cur.
Proof.
  intros H. unfold decided. assert (Hk : forall y, y ∈ map_to_list m -> fst y <> i).
  { intros [j s] Hy <-. apply elem_of_map_to_list in Hy. cbn in H. congruence. }
  revert Hk. generalize (map_to_list m). intros l. induction l as [|y l IH]; intros Hk; [reflexivity|]. cbn [omap list_omap].
  rewrite lookup_insert_ne by (intros E; apply (Hk y); [left|congruence]). rewrite IH; [reflexivity|]. intros z Hz. apply Hk. right. exact Hz.
Qed.
Lemma decided_del m cur i : m !! i = None -> decided m (delete i cur) = decided m cur.
Proof.
  intros H. unfold decided. assert (Hk : forall y, y ∈ map_to_list m -> fst y <> i).
  { intros [j s] Hy <-. apply elem_of_map_to_list in Hy. cbn in H. congruence. }
  revert Hk. generalize (map_to_list m). intros l. induction l as [|y l IH]; intros Hk; [reflexivity|]. cbn [omap list_omap].
  rewrite lookup_delete_ne by (intros E; apply (Hk y); [left|congruence]). rewrite IH; [reflexivity|]. intros z Hz. apply Hk. right. exact Hz.
Qed.
Lemma decided_split m cur i s : m !! i = Some s -> decided m cur ≡ₚ match s, cur !! i with Decided r, Some c => [(c, r)] | _, _ => [] end ++ decided (delete i m) cur.
Proof. intros H. rewrite <- (insert_delete m i s H) at 1. apply decided_insert, lookup_delete. Qed.
Lemma lin_answered w0 A m clk last ws : lin_ok w0 A m clk last ws ->
  let x := foldl track (∅, []) (observed A) in
  (forall i, match m !! i with Some (Called c _) => fst x !! i = Some c | Some (Decided _) => is_Some (fst x !! i) | None => fst x !! i = None end) /\
  lin_pairs A ≡ₚ snd x ++ decided m (fst x).
Proof.
  unfold observed, lin_pairs.
  induction 1 as [|A m clk last ws i c H IH Hm|A m clk last ws t H IH|A m clk last ws i c t0 t ws' r H IH Hm H1 H2 H3 Hr|A m clk last ws i r H IH Hm];
    rewrite ?omap_app; cbn [omap list_omap app]; rewrite ?app_nil_r, ?foldl_app; cbn [foldl].
  - cbn. split; [intros i; rewrite !lookup_empty; reflexivity|reflexivity].
  - destruct (foldl track _ _) as [cur ans]. cbn [fst snd track] in *. destruct IH as [I1 I2]. split.
    + intros j. destruct (decide (j = i)) as [->|Hn]; [rewrite !lookup_insert; reflexivity|]. rewrite !lookup_insert_ne by congruence. apply I1.
    + rewrite I2, decided_insert, decided_cur by exact Hm. reflexivity.
  - destruct (foldl track _ _) as [cur ans]. cbn [fst snd track] in *. exact IH.
  - destruct (foldl track _ _) as [cur ans]. cbn [fst snd] in *. destruct IH as [I1 I2]. pose proof (I1 i) as Hi. rewrite Hm in Hi. split.
    + intros j. destruct (decide (j = i)) as [->|Hn]; [rewrite lookup_insert; eauto|]. rewrite lookup_insert_ne by congruence. apply I1.
    + rewrite I2. rewrite (decided_split m cur i _ Hm). cbn [app].
      rewrite <- (insert_delete_insert m), decided_insert by apply lookup_delete. rewrite Hi. cbn [app]. rewrite <- app_assoc. apply Permutation_app_head, Permutation_app_comm.
  - destruct (foldl track _ _) as [cur ans]. cbn [fst snd track] in *. destruct IH as [I1 I2]. pose proof (I1 i) as Hi. rewrite Hm in Hi. destruct Hi as [c Hi]. rewrite Hi. cbn [fst snd]. split.
    + intros j. destruct (decide (j = i)) as [->|Hn]; [rewrite !lookup_delete; reflexivity|]. rewrite !lookup_delete_ne by congruence. apply I1.
    + rewrite I2, (decided_split m cur i _ Hm), Hi, decided_del by apply lookup_delete. rewrite app_assoc. reflexivity.
Qed.
Lemma lin_pairs_zip A : lin_pairs A = zip (map snd (lin_calls A)) (lin_replies A).
Proof. unfold lin_pairs, lin_calls, lin_replies. induction A as [|[e|i t c r] A IH]; cbn [omap list_omap map]; [reflexivity|exact IH|]. cbn. f_equal. exact IH. Qed.

(** the calls about one key, one after the other *)
Fixpoint runk (h : list (Z * call)) (v : kview) : option (kview * list reply) :=
  match h with
  | [] => Some (v, [])
  | (t, c) :: h => match abs1 c t v with
                   | Some (v1, r) => match runk h v1 with Some (v2, rs) => Some (v2, r :: rs) | None => None end
                   | None => None
                   end
  end.
Definition onk (k : gostr) (c : call) : bool := bool_decide (single c = Some k).
Definition pairs_on (k : gostr) (l : list (call * reply)) : list (call * reply) := List.filter (fun x => onk k (fst x)) l.
Lemma single_names c k : single c = Some k -> names c k.
Proof. unfold names. destruct c; cbn [single keys_of]; intros E; try discriminate; injection E as <-; left. Qed.
Lemma hist_on k h : forall w w' rs, ready w -> all_calls (fun _ c => ~ names c k \/ single c = Some k) h -> run_hist h w = Done w' rs ->
  ready w' /\ exists rs', runk (List.filter (fun tc => onk k (snd tc)) h) (view w k) = Some (view w' k, rs') /\ pairs_on k (zip (map snd h) rs) = zip (map snd (List.filter (fun tc => onk k (snd tc)) h)) rs' /\ length rs' = length (List.filter (fun tc => onk k (snd tc)) h).
Proof.
  induction h as [|[t c] h IH]; intros w w' rs Hr Hall E; simpl in E; [injection E as <- <-; split; [exact Hr|exists []; auto]|].
  destruct (run_call t c w) as [w1 x| |] eqn:E1; [|discriminate|discriminate].
  destruct (run_hist h w1) as [w2 xs| |] eqn:E2; [|discriminate|discriminate]. injection E as <- <-.
  inversion_clear Hall as [|? ? H1 H2]. cbn [fst snd] in H1.
  cbn [List.filter map zip zip_with snd pairs_on fst]. destruct H1 as [H1|H1].
  - assert (Ho : onk k c = false) by (apply bool_decide_false; intros E; apply H1, single_names, E). rewrite !Ho.
    destruct (run_inv _ _ _ _ _ Hr E1) as (V' & Ha & Hr1 & Hv).
    assert (Hk : view w1 k = view w k) by (rewrite Hv; eapply abs_ne; eauto). rewrite <- Hk. apply IH; auto.
  - assert (Ho : onk k c = true) by (apply bool_decide_true, H1). rewrite !Ho. destruct (run_single _ k _ _ _ _ Hr E1 H1) as (Ha & Hr1 & _).
    destruct (IH w1 w2 xs Hr1 H2 E2) as (Hr2 & rs' & R1 & R2 & R3). split; [exact Hr2|]. exists (x :: rs'). cbn [runk map snd zip zip_with length]. rewrite Ha, R1.
    split; [reflexivity|]. split; [|congruence]. unfold pairs_on in R2. f_equal. exact R2.
Qed.
Lemma filter_perm {A} (f : A -> bool) l l' : l ≡ₚ l' -> List.filter f l ≡ₚ List.filter f l'.
Proof. induction 1; cbn [List.filter]; repeat match goal with |- context [f ?x] => destruct (f x) end; auto; try (constructor; auto; fail). etransitivity; eauto. Qed.
Lemma filter_sub {A} (f : A -> bool) (l l' : list A) : l ⊆+ l' -> List.filter f l ⊆+ List.filter f l'.
Proof.
  intros H. apply submseteq_Permutation in H as (x & H). rewrite (filter_perm f _ _ H), List.filter_app. apply submseteq_inserts_r. reflexivity.
Qed.
(** The calls about the key [k] take effect one after the other. [h] is their order. *)
Lemma on_key w0 k s c evs : ready w0 -> serial w0 evs -> calls_in (fun cl => ~ names cl k \/ single cl = Some k) evs ->
  cexec s (start w0) = Some (c, evs) ->
  exists h rs v, runk h (view w0 k) = Some (v, rs) /\ length rs = length h /\
    Forall (fun tc => single (snd tc) = Some k) h /\
    map snd h ⊆+ List.filter (onk k) (issued evs) /\
    pairs_on k (answered evs) ⊆+ zip (map snd h) rs /\
    (c_th c = ∅ -> pairs_on k (answered evs) ≡ₚ zip (map snd h) rs /\ map snd h ≡ₚ List.filter (onk k) (issued evs) /\ ready (c_w c) /\ view (c_w c) k = v).
Proof.
  intros Hr Hser Hin E.
  assert (HL : exists A m last ws, lin_ok w0 A m (w_now (c_w c)) last ws /\ observed A = evs /\ run_hist (lin_calls A) w0 = Done ws (lin_replies A) /\
    (c_th c = ∅ -> m = ∅ /\ same_cache (c_w c) ws)).
  { destruct Hser as [H|[Hd H]]; [eapply C47_locked_calls_linearizable|eapply C105_readers_and_writers_linearizable]; eauto. }
  destruct HL as (A & m & last & ws & HA & Ho & Hh & Hs).
  pose proof (lin_ok_calls _ _ _ _ _ _ HA) as Hp. rewrite Ho in Hp.
  assert (Hall : all_calls (fun _ c => ~ names c k \/ single c = Some k) (lin_calls A)).
  { apply List.Forall_forall. intros [t cl] Hx. cbn [snd].
    assert (Hx' : cl ∈ issued evs). { rewrite Hp. apply elem_of_app. left. apply elem_of_list_fmap. exists (t, cl). split; [reflexivity|apply elem_of_list_In, Hx]. }
    unfold issued in Hx'. apply elem_of_list_omap in Hx' as (e & He' & Hcl). destruct e; try discriminate. injection Hcl as ->. exact (Hin _ _ He'). }
  destruct (hist_on k _ _ _ _ Hr Hall Hh) as (Hrw & rs & R1 & R2 & R3). rewrite <- lin_pairs_zip in R2.
  pose proof (lin_answered _ _ _ _ _ _ HA) as [_ Hans]. rewrite Ho in Hans. fold (answered evs) in Hans.
  assert (Hf : map snd (List.filter (fun tc => onk k (snd tc)) (lin_calls A)) = List.filter (onk k) (map snd (lin_calls A))).
  { generalize (lin_calls A). intros l. induction l as [|x l IH]; [reflexivity|]. cbn [List.filter map]. destruct (onk k (snd x)); cbn [map]; congruence. }
  exists (List.filter (fun tc => onk k (snd tc)) (lin_calls A)), rs, (view ws k). split; [exact R1|]. split; [exact R3|]. split; [|split; [|split]].
  - apply List.Forall_forall. intros x Hx. apply filter_In in Hx as [_ Hx]. apply bool_decide_eq_true in Hx. exact Hx.
  - rewrite Hf. apply filter_sub. rewrite Hp. apply submseteq_inserts_r. reflexivity.
  - rewrite <- R2. apply filter_sub. rewrite Hans. apply submseteq_inserts_r. reflexivity.
  - intros He. destruct (Hs He) as [-> Hsame]. split; [|split; [|split]].
    + rewrite <- R2. apply filter_perm. rewrite Hans. unfold decided. rewrite map_to_list_empty. cbn [omap list_omap]. rewrite app_nil_r. reflexivity.
    + rewrite Hf. apply filter_perm. rewrite Hp. unfold pending. rewrite map_to_list_empty. cbn [omap list_omap]. rewrite app_nil_r. reflexivity.
    + destruct Hrw as [Q1 Q2 Q3 Q4 Q5 Q6]. unfold same_cache, set_now in Hsame. destruct (c_w c), ws. cbn in *. injection Hsame. intros. subst. constructor; cbn; auto.
    + unfold same_cache, set_now in Hsame. destruct (c_w c), ws. cbn in *. injection Hsame. intros. subst. reflexivity.
Qed.

(** ** Before and after *)
(** [answered e2] holds the calls that were both issued and answered within [e2]. *)
Lemma lin_prefix w0 A m clk last ws : lin_ok w0 A m clk last ws -> forall A1 A2, A = A1 ++ A2 -> exists m1 clk1 last1 ws1, lin_ok w0 A1 m1 clk1 last1 ws1.
Proof.
  induction 1; intros A1 A2 E;
    [destruct A1; [|discriminate]; eexists _, _, _, _; constructor| | | |];
    (destruct A2 as [|x A2 _] using rev_ind; [rewrite app_nil_r in E; subst A1; eexists _, _, _, _; econstructor; eauto; fail|]);
    rewrite app_assoc in E; apply app_inj_tail in E as [E _]; eauto.
Qed.
Lemma decided_none m cur i s : cur !! i = None -> decided (<[i := s]> m) cur ≡ₚ decided m cur.
Proof.
  intros H. rewrite <- (insert_delete_insert m), decided_insert by apply lookup_delete. rewrite H.
  destruct (m !! i) as [s'|] eqn:E; [rewrite (decided_split m cur i s' E), H; destruct s, s'; reflexivity|].
  rewrite delete_notin by exact E. destruct s; reflexivity.
Qed.
Lemma decided_empty m : decided m ∅ = [].
Proof.
  unfold decided. generalize (map_to_list m). intros l. induction l as [|x l IH]; [reflexivity|]. cbn [omap list_omap]. rewrite lookup_empty. destruct (snd x); exact IH.
Qed.
Lemma lin_after w0 A m clk last ws : lin_ok w0 A m clk last ws -> forall A1 A2, A = A1 ++ A2 ->
  let x := foldl track (∅, []) (observed A2) in
  (forall i c, fst x !! i = Some c -> (exists t, m !! i = Some (Called c t)) \/ exists r, m !! i = Some (Decided r)) /\
  snd x ++ decided m (fst x) ⊆+ lin_pairs A2.
Proof.
  assert (Nil : forall m, let x := foldl track (∅, []) (observed []) in
    (forall i c, fst x !! i = Some c -> (exists t, m !! i = Some (Called c t)) \/ exists r, m !! i = Some (Decided r)) /\ snd x ++ decided m (fst x) ⊆+ lin_pairs []).
  { intros m0. cbn. rewrite decided_empty. split; [intros i c; rewrite lookup_empty; discriminate|reflexivity]. }
  unfold observed, lin_pairs in *.
  induction 1 as [|A m clk last ws i c H IH Hm|A m clk last ws t H IH|A m clk last ws i c t0 t ws' r H IH Hm H1 H2 H3 Hr|A m clk last ws i r H IH Hm]; intros A1 A2 E;
    [destruct A1; [|discriminate]; destruct A2; [|discriminate]; apply Nil| | | |];
    (destruct A2 as [|x A2 _] using rev_ind; [apply Nil|]);
    rewrite app_assoc in E; apply app_inj_tail in E as [E <-]; specialize (IH _ _ E); clear Nil;
    rewrite ?omap_app; cbn [omap list_omap app]; rewrite ?app_nil_r, ?foldl_app; cbn [foldl];
    destruct (foldl track _ _) as [cur ans]; cbn [fst snd track] in *; destruct IH as [I1 I2].
  - split.
    + intros j c'. destruct (decide (j = i)) as [->|Hn]; [rewrite !lookup_insert; intros [= <-]; eauto|]. rewrite !lookup_insert_ne by congruence. apply I1.
    + rewrite decided_insert, decided_cur by exact Hm. exact I2.
  - auto.
  - split.
    + intros j c' Hj. destruct (decide (j = i)) as [->|Hn]; [rewrite lookup_insert; eauto|]. rewrite lookup_insert_ne by congruence. auto.
    + destruct (cur !! i) as [c'|] eqn:Ec.
      * destruct (I1 i c' Ec) as [[t' Ht]|[r' Ht]]; rewrite Hm in Ht; [injection Ht as <- _|discriminate].
        rewrite (decided_split m cur i _ Hm) in I2. cbn [app] in I2.
        rewrite <- (insert_delete_insert m), decided_insert by apply lookup_delete. rewrite Ec. cbn [app].
        rewrite <- Permutation_middle, Permutation_app_comm. cbn [app]. rewrite <- Permutation_cons_append. apply submseteq_skip. rewrite Permutation_app_comm. exact I2.
      * rewrite decided_none by exact Ec. etransitivity; [exact I2|]. apply submseteq_inserts_r. reflexivity.
  - destruct (cur !! i) as [c'|] eqn:Ec; cbn [fst snd].
    + split.
      * intros j c2. destruct (decide (j = i)) as [->|Hn]; [rewrite lookup_delete; discriminate|]. rewrite !lookup_delete_ne by congruence. apply I1.
      * rewrite (decided_split m cur i _ Hm), Ec in I2. rewrite decided_del by apply lookup_delete. rewrite <- app_assoc. exact I2.
    + split.
      * intros j c2 Hj. assert (Hn : j <> i) by congruence. rewrite lookup_delete_ne by congruence. auto.
      * rewrite (decided_split m cur i _ Hm), Ec in I2. exact I2.
Qed.
Lemma omap_split {A B} (f : A -> option B) l : forall e1 e2, omap f l = e1 ++ e2 -> exists l1 l2, l = l1 ++ l2 /\ omap f l1 = e1 /\ omap f l2 = e2.
Proof.
  induction l as [|x l IH]; intros e1 e2 E; cbn [omap list_omap] in E.
  - symmetry in E. apply app_eq_nil in E as [-> ->]. exists [], []. auto.
  - destruct (f x) as [y|] eqn:Ex.
    + destruct e1 as [|y' e1].
      * exists [], (x :: l). cbn [omap list_omap]. rewrite Ex. cbn [app] in *. auto.
      * injection E as -> E. destruct (IH _ _ E) as (l1 & l2 & -> & <- & <-). exists (x :: l1), l2. cbn [omap list_omap]. rewrite Ex. auto.
    + destruct (IH _ _ E) as (l1 & l2 & -> & <- & <-). exists (x :: l1), l2. cbn [omap list_omap]. rewrite Ex. auto.
Qed.
Lemma runk_app h1 h2 : forall v, runk (h1 ++ h2) v =
  match runk h1 v with Some (v1, r1) => match runk h2 v1 with Some (v2, r2) => Some (v2, r1 ++ r2) | None => None end | None => None end.
Proof.
  induction h1 as [|[t c] h1 IH]; intros v; cbn [app runk]; [destruct (runk h2 v) as [[]|]; reflexivity|].
  destruct (abs1 c t v) as [[v1 r]|]; [|reflexivity]. rewrite IH. destruct (runk h1 v1) as [[v2 rs]|]; [|reflexivity]. destruct (runk h2 v2) as [[]|]; reflexivity.
Qed.
Lemma filter_on2 k f l : (forall c, f c = true -> onk k c = true) -> List.filter f (List.filter (onk k) l) = List.filter f l.
Proof. intros H. induction l as [|x l IH]; [reflexivity|]. cbn [List.filter]. destruct (onk k x) eqn:E1; cbn [List.filter]; [rewrite IH; reflexivity|]. destruct (f x) eqn:E2; [|exact IH]. rewrite H in E1 by exact E2. discriminate. Qed.
(** The calls of one goroutine take effect in the order in which it issues them. *)
Lemma lin_order w0 A m clk last ws i (f : call -> bool) : lin_ok w0 A m clk last ws -> (forall j cl, EInv j cl ∈ observed A -> f cl = true -> j = i) ->
  List.filter f (map snd (lin_calls A)) `prefix_of` List.filter f (issued (observed A)).
Proof.
  intros H Hi. cut ((forall j cl t, m !! j = Some (Called cl t) -> f cl = true -> j = i) /\
    List.filter f (issued (observed A)) = List.filter f (map snd (lin_calls A)) ++ match m !! i with Some (Called cl _) => List.filter f [cl] | _ => [] end).
  { intros [_ ->]. apply prefix_app_r. reflexivity. }
  unfold observed, issued, lin_calls in *.
  induction H as [|A m clk last ws j c H IH Hm|A m clk last ws t H IH|A m clk last ws j c t0 t ws' r H IH Hm H1 H2 H3 Hr|A m clk last ws j r H IH Hm];
    rewrite ?omap_app in *; cbn [omap list_omap app] in *; rewrite ?app_nil_r, ?map_app, ?List.filter_app in *; cbn [map snd List.filter] in *.
  - split; [intros j cl t E; vm_compute in E; discriminate|reflexivity].
  - destruct IH as [I1 I2]; [intros j' cl Hj; apply Hi, elem_of_app; auto|]. assert (Hj : f c = true -> j = i) by (apply Hi, elem_of_app; right; left). split.
    + intros j' cl t. destruct (decide (j' = j)) as [->|Hn]; [rewrite lookup_insert; intros [= <- _]; exact Hj|rewrite lookup_insert_ne by congruence; apply I1].
    + rewrite ?omap_app, ?List.filter_app, I2. cbn [omap list_omap app List.filter]. destruct (decide (j = i)) as [->|Hn].
      * rewrite lookup_insert, Hm, app_nil_r. reflexivity.
      * rewrite lookup_insert_ne by congruence. destruct (f c); [destruct Hn; auto|]. apply app_nil_r.
  - rewrite ?omap_app; cbn [omap list_omap app]; rewrite ?app_nil_r. apply IH. intros j' cl Hj. apply Hi, elem_of_app. auto.
  - destruct IH as [I1 I2]; [exact Hi|]. split.
    + intros j' cl t'. destruct (decide (j' = j)) as [->|Hn]; [rewrite lookup_insert; discriminate|rewrite lookup_insert_ne by congruence; apply I1].
    + rewrite I2. destruct (decide (j = i)) as [->|Hn].
      * rewrite lookup_insert, Hm, app_nil_r. reflexivity.
      * rewrite lookup_insert_ne by congruence. destruct (f c) eqn:Ef; [destruct Hn; eapply I1; eauto|]. rewrite app_nil_r. reflexivity.
  - rewrite ?omap_app; cbn [omap list_omap app]; rewrite ?app_nil_r. destruct IH as [I1 I2]; [intros j' cl Hj; apply Hi, elem_of_app; auto|]. split.
    + intros j' cl t. destruct (decide (j' = j)) as [->|Hn]; [rewrite lookup_delete; discriminate|rewrite lookup_delete_ne by congruence; apply I1].
    + rewrite I2. destruct (decide (j = i)) as [->|Hn]; [rewrite lookup_delete, Hm; reflexivity|rewrite lookup_delete_ne by congruence; reflexivity].
Qed.
Lemma on_key2 w0 k s c e1 e2 : ready w0 -> serial w0 (e1 ++ e2) -> calls_in (fun cl => ~ names cl k \/ single cl = Some k) (e1 ++ e2) ->
  cexec s (start w0) = Some (c, e1 ++ e2) ->
  exists h1 rs1 v1 h2 rs2 v2, runk h1 (view w0 k) = Some (v1, rs1) /\ runk h2 v1 = Some (v2, rs2) /\ length rs1 = length h1 /\ length rs2 = length h2 /\
    Forall (fun tc => single (snd tc) = Some k) (h1 ++ h2) /\
    map snd (h1 ++ h2) ⊆+ List.filter (onk k) (issued (e1 ++ e2)) /\
    pairs_on k (answered e1) ⊆+ zip (map snd h1) rs1 /\ pairs_on k (answered e2) ⊆+ zip (map snd h2) rs2 /\
    (forall i f, (forall j cl, EInv j cl ∈ e1 ++ e2 -> f cl = true -> j = i) -> (forall cl, f cl = true -> onk k cl = true) ->
      List.filter f (map snd h1) `prefix_of` List.filter f (issued e1) /\ List.filter f (map snd (h1 ++ h2)) `prefix_of` List.filter f (issued (e1 ++ e2))).
Proof.
  intros Hr Hser Hin E.
  assert (HL : exists A m last ws, lin_ok w0 A m (w_now (c_w c)) last ws /\ observed A = e1 ++ e2 /\ run_hist (lin_calls A) w0 = Done ws (lin_replies A)).
  { destruct Hser as [H|[Hd H]]; [edestruct C47_locked_calls_linearizable as (A & m & last & ws & ? & ? & ? & _)|edestruct C105_readers_and_writers_linearizable as (A & m & last & ws & ? & ? & ? & _)]; eauto 8. }
  destruct HL as (A & m & last & ws & HA & Ho & Hh).
  pose proof (lin_ok_calls _ _ _ _ _ _ HA) as Hp. rewrite Ho in Hp.
  assert (Hall : all_calls (fun _ c => ~ names c k \/ single c = Some k) (lin_calls A)).
  { apply List.Forall_forall. intros [t cl] Hx. cbn [snd].
    assert (Hx' : cl ∈ issued (e1 ++ e2)). { rewrite Hp. apply elem_of_app. left. apply elem_of_list_fmap. exists (t, cl). split; [reflexivity|apply elem_of_list_In, Hx]. }
    unfold issued in Hx'. apply elem_of_list_omap in Hx' as (e & He' & Hcl). destruct e; try discriminate. injection Hcl as ->. exact (Hin _ _ He'). }
  destruct (omap_split _ _ _ _ Ho) as (A1 & A2 & -> & O1 & O2).
  change (observed A1 = e1) in O1. change (observed A2 = e2) in O2.
  destruct (lin_prefix _ _ _ _ _ _ HA A1 A2 eq_refl) as (m1 & clk1 & last1 & ws1 & HA1).
  destruct (lin_answered _ _ _ _ _ _ HA1) as [_ P1]. destruct (lin_after _ _ _ _ _ _ HA A1 A2 eq_refl) as [_ P2]. rewrite O1 in P1. rewrite O2 in P2.
  change (snd (foldl track (∅, []) e1)) with (answered e1) in P1. change (snd (foldl track (∅, []) e2)) with (answered e2) in P2.
  assert (L1 : lin_calls (A1 ++ A2) = lin_calls A1 ++ lin_calls A2) by apply omap_app.
  assert (L2 : lin_replies (A1 ++ A2) = lin_replies A1 ++ lin_replies A2) by apply omap_app.
  rewrite L1 in Hp, Hall, Hh. rewrite L2 in Hh.
  apply run_hist_app in Hh as (w1 & r1 & r2 & H1 & H2 & Hrs).
  assert (Hlen : forall B, length (lin_calls B) = length (lin_replies B)).
  { intros B. unfold lin_calls, lin_replies. induction B as [|[e|i t cl r] B IH]; cbn [omap list_omap length]; congruence. }
  assert (Hrun : forall h w w' rs, run_hist h w = Done w' rs -> length h = length rs).
  { intros h. induction h as [|[t cl] h IH]; intros w w' rs Eh; simpl in Eh; [injection Eh as _ <-; reflexivity|].
    destruct (run_call t cl w) as [wa x| |]; try discriminate. destruct (run_hist h wa) as [wb xs| |] eqn:Ew; try discriminate. injection Eh as _ <-. cbn. f_equal. eauto. }
  apply app_inj_1 in Hrs as [Hr1 Hr2]; [|rewrite <- Hlen; eauto]. subst r1 r2.
  unfold all_calls in Hall. apply Forall_app in Hall as [Ha1 Ha2].
  destruct (hist_on k _ _ _ _ Hr Ha1 H1) as (Hrw & rs1 & R1 & R2 & R3). rewrite <- lin_pairs_zip in R2.
  destruct (hist_on k _ _ _ _ Hrw Ha2 H2) as (_ & rs2 & S1 & S2 & S3). rewrite <- lin_pairs_zip in S2.
  assert (Hf : forall l : list (Z * call), map snd (List.filter (fun tc => onk k (snd tc)) l) = List.filter (onk k) (map snd l)).
  { intros l. induction l as [|x l IH]; [reflexivity|]. cbn [List.filter map]. destruct (onk k (snd x)); cbn [map]; congruence. }
  eexists _, rs1, _, _, rs2, _. split; [exact R1|]. split; [exact S1|]. split; [exact R3|]. split; [exact S3|]. split; [|split; [|split; [|split]]].
  - rewrite <- List.filter_app. apply List.Forall_forall. intros x Hx. apply filter_In in Hx as [_ Hx]. apply bool_decide_eq_true in Hx. exact Hx.
  - rewrite <- List.filter_app, Hf. apply filter_sub. rewrite Hp. apply submseteq_inserts_r. reflexivity.
  - rewrite <- R2. apply filter_sub. rewrite P1. apply submseteq_inserts_r. reflexivity.
  - rewrite <- S2. apply filter_sub. etransitivity; [|exact P2]. apply submseteq_inserts_r. reflexivity.
  - intros i f Hi Hon. rewrite <- List.filter_app, !Hf, !(filter_on2 k f) by exact Hon. split.
    + rewrite <- O1. eapply lin_order; [exact HA1|]. rewrite O1. intros j cl Hj. apply Hi, elem_of_app. auto.
    + rewrite <- L1, <- Ho. eapply lin_order; [exact HA|]. rewrite Ho. exact Hi.
Qed.

(** ** C143: tickets *)
(** the replies to the calls of a kind, and how many were issued *)
Definition replies_to (f : call -> bool) (evs : list event) : list reply := map snd (List.filter (fun x => f (fst x)) (answered evs)).
Definition count (f : call -> bool) (evs : list event) : Z := zlen (List.filter f (issued evs)).
Definition is_incr (k : gostr) (c : call) : bool := match c with CIncr k' => bool_decide (k' = k) | _ => false end.
(** the key holds the number [n]; a missing key holds 0 *)
Definition holds (w : world) (k : gostr) (n : Z) : Prop := counter w k n \/ (stored w k = None /\ n = 0).
Definition tickets (from n : Z) : list reply := map (fun z => RInt (z, None)) (seqZ (from + 1) n).

Definition num (n : Z) (v : kview) : Prop := (fst v = Some (CV (VInt n)) \/ fst v = Some (CV (VInt64 n)) \/ (fst v = None /\ n = 0)) /\ snd v = None.
Lemma looks_step k c t v : looks k c -> snd v = None -> exists r, abs1 c t v = Some (v, r).
Proof. intros H Hd. destruct v as [x d]. cbn in Hd. subst d. assert (Hp : purge t (x, None) = (x, None)) by (destruct x; reflexivity).
  destruct H as [->|[->|[->|(a & b & ->)]]]; cbn [abs1]; rewrite Hp; eauto. Qed.
Lemma looks_single k c : looks k c -> single c = Some k.
Proof. intros [->|[->|[->|(a & b & ->)]]]; reflexivity. Qed.
Lemma looks_incr k c : looks k c -> is_incr k c = false.
Proof. intros [->|[->|[->|(a & b & ->)]]]; reflexivity. Qed.
Lemma filter_on k f l : (forall c, f c = true -> onk k c = true) -> List.filter (fun x : call * reply => f (fst x)) (pairs_on k l) = List.filter (fun x => f (fst x)) l.
Proof. intros H. unfold pairs_on. induction l as [|x l IH]; [reflexivity|]. cbn [List.filter]. destruct (onk k (fst x)) eqn:E1; cbn [List.filter]; [rewrite IH; reflexivity|]. destruct (f (fst x)) eqn:E2; [|exact IH]. rewrite H in E1 by exact E2. discriminate. Qed.
Lemma incr_on k c : is_incr k c = true -> onk k c = true.
Proof. destruct c; cbn; try discriminate. intros H. apply bool_decide_eq_true in H as ->. apply bool_decide_true. reflexivity. Qed.
Lemma seqZ_S a n : 0 <= n -> seqZ a (n + 1) = a :: seqZ (a + 1) n.
Proof. intros H. rewrite seqZ_cons by lia. f_equal. f_equal; lia. Qed.

Lemma incr_run k h : forall v v' rs n, Forall (fun tc => looks k (snd tc) \/ snd tc = CIncr k) h -> num n v ->
  - 2 ^ 63 <= n -> n + zlen (List.filter (is_incr k) (map snd h)) < 2 ^ 63 -> runk h v = Some (v', rs) ->
  map snd (List.filter (fun x => is_incr k (fst x)) (zip (map snd h) rs)) = tickets n (zlen (List.filter (is_incr k) (map snd h))) /\
  num (n + zlen (List.filter (is_incr k) (map snd h))) v'.
Proof.
  induction h as [|[t c] h IH]; intros v v' rs n Hall Hn Hlo Hhi E; cbn [runk] in E.
  - injection E as <- <-. cbn [map List.filter zip zip_with]. change (zlen (@nil call)) with 0. split; [reflexivity|]. rewrite Z.add_0_r. exact Hn.
  - pose proof (Forall_inv Hall) as Hc. apply Forall_inv_tail in Hall. cbn [snd] in Hc.
    destruct Hc as [Hc| ->].
    + destruct (looks_step k c t v Hc) as [r Er]; [apply Hn|]. rewrite Er in E. destruct (runk h v) as [[v2 rs2]|] eqn:E2; [|discriminate]. injection E as <- <-.
      cbn [map snd List.filter zip zip_with fst] in *. rewrite (looks_incr k c Hc) in *. eapply IH; eauto.
    + assert (Hi : is_incr k (CIncr k) = true) by (cbn; apply bool_decide_true; reflexivity).
      cbn [map snd List.filter] in Hhi. rewrite Hi in Hhi.
      assert (Hz : forall A (x : A) l, zlen (x :: l) = zlen l + 1) by (intros; unfold zlen; cbn [length]; lia). rewrite Hz in Hhi.
      assert (H0 : forall A (l : list A), 0 <= zlen l) by (intros; unfold zlen; lia). pose proof (H0 _ (List.filter (is_incr k) (map snd h))) as Hpos.
      assert (Hst : exists v1, abs1 (CIncr k) t v = Some (v1, RInt (n + 1, None)) /\ num (n + 1) v1).
      { cbn [abs1]. unfold wr. destruct Hn as [Hn Hd]. destruct Hn as [Hn|[Hn|[Hn ->]]].
        1,2: destruct (a_incr_counter 1 n v) as (X1 & X2 & X3); [tauto|]; rewrite wrap64_id in X1, X3 by (apply is_int64_iff; unfold min_int64, max_int64; lia);
          rewrite X1; eexists; split; [reflexivity|]; split; [tauto|congruence].
        unfold a_incr. rewrite Hn. cbn. eexists. split; [reflexivity|]. split; [|exact Hd]. right; left. reflexivity. }
      destruct Hst as (v1 & Es & Hn1). rewrite Es in E. destruct (runk h v1) as [[v2 rs2]|] eqn:E2; [|discriminate]. injection E as <- <-.
      destruct (IH v1 v2 rs2 (n + 1) Hall Hn1) as [I1 I2]; [lia|lia|exact E2|].
      cbn [map snd List.filter zip zip_with fst]. rewrite Hi. cbn [map snd]. rewrite Hz. split.
      * unfold tickets. rewrite seqZ_S by lia. cbn [map]. f_equal. exact I1.
      * replace (n + (zlen (List.filter (is_incr k) (map snd h)) + 1)) with (n + 1 + zlen (List.filter (is_incr k) (map snd h))) by lia. exact I2.
Qed.

Lemma holds_num w k n : ready w -> deadline w k = None -> (holds w k n <-> num n (view w k)).
Proof.
  intros Hr Hd. unfold holds, num. rewrite (view_dl w k Hr). split.
  - intros [H|[H ->]]; split; auto; [apply (view_counter w k n Hr) in H; tauto|]. right; right. split; [apply view_none; auto|reflexivity].
  - intros [[H|[H|[H ->]]] _]; [left; apply counter_view; auto..|]. right. pose proof (view_stored w k Hr) as Hv. rewrite H in Hv. auto.
Qed.
Lemma filter_map_snd (f : call -> bool) (l : list (call * reply)) l' : l ⊆+ l' -> map snd (List.filter (fun x => f (fst x)) l) ⊆+ map snd (List.filter (fun x => f (fst x)) l').
Proof. intros H. apply fmap_submseteq, filter_sub, H. Qed.
Lemma zlen_sub {A} (l l' : list A) : l ⊆+ l' -> zlen l <= zlen l'.
Proof. intros H. apply submseteq_length in H. unfold zlen. lia. Qed.
Lemma zlen_perm {A} (l l' : list A) : l ≡ₚ l' -> zlen l = zlen l'.
Proof. intros H. unfold zlen. rewrite H. reflexivity. Qed.
Lemma tickets_sub a n m : 0 <= n <= m -> tickets a n ⊆+ tickets a m.
Proof. intros H. unfold tickets. replace m with (n + (m - n)) by lia. rewrite seqZ_app by lia. rewrite map_app. apply submseteq_inserts_r. reflexivity. Qed.
Lemma tickets_nodup a n : NoDup (tickets a n).
Proof. apply (NoDup_fmap_2_strong (fun z => RInt (z, None))); [intros x y _ _ E; injection E; auto|apply NoDup_seqZ]. Qed.
Lemma sub_nodup {A} (l l' : list A) : l ⊆+ l' -> NoDup l' -> NoDup l.
Proof. intros H Hn. apply submseteq_Permutation in H as (x & H). rewrite H in Hn. apply NoDup_app in Hn. tauto. Qed.
Lemma elem_tickets a n z : RInt (z, None) ∈ tickets a n -> a < z <= a + n.
Proof. intros H. apply elem_of_list_fmap in H as (y & E & H). injection E as ->. apply elem_of_seqZ in H. lia. Qed.
Lemma on_class k (P : call -> Prop) h evs : calls_in (fun cl => ~ names cl k \/ P cl) evs -> Forall (fun tc : Z * call => single (snd tc) = Some k) h ->
  map snd h ⊆+ List.filter (onk k) (issued evs) -> Forall (fun tc => P (snd tc)) h.
Proof.
  intros Hin R3 R4. apply List.Forall_forall. intros x Hx. rewrite List.Forall_forall in R3. pose proof (R3 _ Hx) as Hs.
  assert (Hi : snd x ∈ List.filter (onk k) (issued evs)).
  { eapply elem_of_submseteq; [|exact R4]. apply elem_of_list_fmap. exists x. split; [reflexivity|apply elem_of_list_In, Hx]. }
  apply elem_of_list_In, filter_In in Hi as [Hi _]. apply elem_of_list_In in Hi.
  unfold issued in Hi. apply elem_of_list_omap in Hi as (e & He & Hcl). destruct e; try discriminate. injection Hcl as Hcl.
  destruct (Hin _ _ He) as [Hn|Hn]; rewrite Hcl in Hn; [|exact Hn]. destruct Hn. apply single_names, Hs.
Qed.

(** Incr called by any number of goroutines hands every caller a number of its own: the replies are the numbers
    that follow the old value, each at most once; when all calls have returned, each exactly once. *)
Theorem C143_tickets w0 k n s c evs :
  ready w0 -> deadline w0 k = None -> holds w0 k n -> serial w0 evs ->
  calls_in (fun cl => ~ names cl k \/ looks k cl \/ cl = CIncr k) evs ->
  - 2 ^ 63 <= n -> n + count (is_incr k) evs < 2 ^ 63 ->
  cexec s (start w0) = Some (c, evs) ->
  replies_to (is_incr k) evs ⊆+ tickets n (count (is_incr k) evs) /\
  NoDup (replies_to (is_incr k) evs) /\
  (c_th c = ∅ -> replies_to (is_incr k) evs ≡ₚ tickets n (count (is_incr k) evs) /\ holds (c_w c) k (n + count (is_incr k) evs)).
Proof.
  intros Hr Hd Hh Hser Hin Hlo Hhi E.
  destruct (on_key w0 k s c evs Hr Hser) as (h & rs & v & R1 & R2 & R3 & R4 & R5 & R6); [|exact E|].
  { intros i cl Hi. destruct (Hin i cl Hi) as [?|[?| ->]]; [auto|right; apply looks_single; auto|right; reflexivity]. }
  apply holds_num in Hh; auto.
  assert (Hk : Forall (fun tc => looks k (snd tc) \/ snd tc = CIncr k) h).
  { exact (on_class _ _ _ _ Hin R3 R4). }
  assert (Hle : zlen (List.filter (is_incr k) (map snd h)) <= count (is_incr k) evs).
  { apply zlen_sub. rewrite <- (filter_on2 k (is_incr k) (issued evs)) by apply incr_on. apply filter_sub, R4. }
  destruct (incr_run k h _ _ _ n Hk Hh Hlo ltac:(lia) R1) as [I1 I2].
  assert (Hsub : replies_to (is_incr k) evs ⊆+ tickets n (count (is_incr k) evs)).
  { unfold replies_to. rewrite <- (filter_on k) by apply incr_on. etransitivity; [apply filter_map_snd, R5|]. rewrite I1. apply tickets_sub. unfold zlen in *. lia. }
  split; [exact Hsub|]. split; [eapply sub_nodup; [exact Hsub|apply tickets_nodup]|].
  intros He. destruct (R6 He) as (P1 & P2 & P3 & P4).
  assert (Heq : zlen (List.filter (is_incr k) (map snd h)) = count (is_incr k) evs).
  { apply zlen_perm. rewrite <- (filter_on2 k (is_incr k) (issued evs)) by apply incr_on. apply filter_perm, P2. }
  rewrite Heq in *. split.
  - unfold replies_to. rewrite <- (filter_on k) by apply incr_on. rewrite <- I1. apply Permutation_map, filter_perm, P1.
  - apply holds_num; auto; [rewrite <- view_dl, P4 by auto; apply I2|]. rewrite P4. exact I2.
Qed.
(** The numbers respect time: a caller that starts after another has its number gets a larger one. *)
Theorem C143_in_order w0 k n s c e1 e2 a b :
  ready w0 -> deadline w0 k = None -> holds w0 k n -> serial w0 (e1 ++ e2) ->
  calls_in (fun cl => ~ names cl k \/ looks k cl \/ cl = CIncr k) (e1 ++ e2) ->
  - 2 ^ 63 <= n -> n + count (is_incr k) (e1 ++ e2) < 2 ^ 63 ->
  cexec s (start w0) = Some (c, e1 ++ e2) ->
  RInt (a, None) ∈ replies_to (is_incr k) e1 -> RInt (b, None) ∈ replies_to (is_incr k) e2 -> a < b.
Proof.
  intros Hr Hd Hh Hser Hin Hlo Hhi E Ha Hb.
  destruct (on_key2 w0 k s c e1 e2 Hr Hser) as (h1 & rs1 & v1 & h2 & rs2 & v2 & R1 & S1 & R2 & S2 & R3 & R4 & R5 & S5 & _); [|exact E|].
  { intros i cl Hi. destruct (Hin i cl Hi) as [?|[?| ->]]; [auto|right; apply looks_single; auto|right; reflexivity]. }
  apply holds_num in Hh; auto.
  pose proof (on_class _ _ _ _ Hin R3 R4) as Hk. apply Forall_app in Hk as [K1 K2].
  assert (Hle : zlen (List.filter (is_incr k) (map snd (h1 ++ h2))) <= count (is_incr k) (e1 ++ e2)).
  { apply zlen_sub. rewrite <- (filter_on2 k (is_incr k) (issued (e1 ++ e2))) by apply incr_on. apply filter_sub, R4. }
  rewrite map_app, List.filter_app in Hle. unfold zlen in Hle at 1. rewrite app_length in Hle.
  destruct (incr_run k h1 _ v1 rs1 n K1 Hh Hlo) as [I1 I2]; [|exact R1|]; [unfold zlen in *; lia|].
  destruct (incr_run k h2 _ v2 rs2 _ K2 I2) as [J1 J2]; [| |exact S1|]; [unfold zlen in *; lia..|].
  unfold replies_to in Ha, Hb. rewrite <- (filter_on k) in Ha, Hb by apply incr_on.
  pose proof (elem_of_submseteq _ _ _ Ha (filter_map_snd (is_incr k) _ _ R5)) as Ha'. pose proof (elem_of_submseteq _ _ _ Hb (filter_map_snd (is_incr k) _ _ S5)) as Hb'.
  rewrite I1 in Ha'. rewrite J1 in Hb'. apply elem_tickets in Ha', Hb'. lia.
Qed.
(** Three goroutines draw tickets while a fourth looks. *)
Definition c143_run := [AInv 1 (CIncr (bs "t")); AInv 2 (CIncr (bs "t")); AInv 4 (CGet (bs "t"))] ++ runs 2 3 ++ runs 4 4 ++ [ARet 2; ARet 4; AInv 3 (CIncr (bs "t"))] ++ runs 1 4 ++ runs 3 4 ++ [ARet 3; ARet 1].
Example C143_ex :
  match cexec c143_run (start (new_world 0)) with
  | Some (c, evs) => answered evs = [(CIncr (bs "t"), RInt (1, None)); (CGet (bs "t"), RStr (bs "1", None)); (CIncr (bs "t"), RInt (3, None)); (CIncr (bs "t"), RInt (2, None))] /\
      replies_to (is_incr (bs "t")) evs = [RInt (1, None); RInt (3, None); RInt (2, None)] /\ tickets 0 (count (is_incr (bs "t")) evs) = [RInt (1, None); RInt (2, None); RInt (3, None)] /\ bool_decide (c_th c = ∅) = true
  | None => False end.
Proof. vm_compute. auto. Qed.
Example C143_hyps : holds (new_world 0) (bs "t") 0 /\ deadline (new_world 0) (bs "t") = None /\ ready (new_world 0).
Proof. split; [right; split; reflexivity|]. split; [reflexivity|]. apply ready_reachable. exists 0, [], []. reflexivity. Qed.

(** ** The calls about the key, for the remaining theorems *)
Definition sel (f : call -> bool) (l : list (call * reply)) : list (call * reply) := List.filter (fun x => f (fst x)) l.
Lemma key_runs w0 k (P : call -> Prop) s c evs : ready w0 -> serial w0 evs -> (forall cl, P cl -> single cl = Some k) ->
  calls_in (fun cl => ~ names cl k \/ P cl) evs -> cexec s (start w0) = Some (c, evs) ->
  exists h rs v, Forall (fun tc => P (snd tc)) h /\ runk h (view w0 k) = Some (v, rs) /\
    (forall f, (forall c, f c = true -> onk k c = true) -> sel f (answered evs) ⊆+ sel f (zip (map snd h) rs) /\ List.filter f (map snd h) ⊆+ List.filter f (issued evs)) /\
    (c_th c = ∅ -> ready (c_w c) /\ view (c_w c) k = v /\
      forall f, (forall c, f c = true -> onk k c = true) -> sel f (answered evs) ≡ₚ sel f (zip (map snd h) rs) /\ List.filter f (map snd h) ≡ₚ List.filter f (issued evs)).
Proof.
  intros Hr Hser HP Hin E.
  destruct (on_key w0 k s c evs Hr Hser) as (h & rs & v & R1 & R2 & R3 & R4 & R5 & R6); [|exact E|].
  { intros i cl Hi. destruct (Hin i cl Hi); auto. }
  exists h, rs, v. split; [exact (on_class _ _ _ _ Hin R3 R4)|]. split; [exact R1|]. split.
  - intros f Hf. split.
    + unfold sel. rewrite <- (filter_on k) by exact Hf. apply filter_sub, R5.
    + rewrite <- (filter_on2 k f (issued evs)) by exact Hf. apply filter_sub, R4.
  - intros He. destruct (R6 He) as (P1 & P2 & P3 & P4). split; [exact P3|]. split; [exact P4|]. intros f Hf. split.
    + unfold sel. rewrite <- (filter_on k) by exact Hf. apply filter_perm, P1.
    + rewrite <- (filter_on2 k f (issued evs)) by exact Hf. apply filter_perm, P2.
Qed.
Definition shown (v : kview) : gret gostr := match fst v with None => ([], Some ErrKeyNil) | Some x => fmt_cret x end.
Lemma purge_none t v : snd v = None -> purge t v = v.
Proof. destruct v as [[x|] d]; cbn; intros ->; reflexivity. Qed.
(** What Get answers. *)
Definition shows (w : world) (k : gostr) (g : gret gostr) : Prop := forall t, answer t (CGet k) w = Some (RStr g).
Lemma shows_view w k g : ready w -> deadline w k = None -> (shows w k g <-> g = shown (view w k)).
Proof.
  intros Hr Hd.
  assert (H : forall t, answer t (CGet k) w = Some (RStr (shown (view w k)))).
  { intros t. unfold answer. destruct (run_single_ex (CGet k) k t w (view w k) (RStr (shown (view w k))) Hr eq_refl) as (w' & E & _); [|rewrite E; reflexivity].
    cbn [abs1]. rewrite purge_none by (rewrite view_dl; auto). reflexivity. }
  split; [intros Hs; specialize (Hs 0); rewrite H in Hs; injection Hs; auto|]. intros -> t. apply H.
Qed.
Lemma shown_put s v : shown (put s v) = (text s, None).
Proof. unfold shown, put. cbn. unfold fmt_cret. cbn. rewrite fmt_try. reflexivity. Qed.

Lemma fa_in {A} (P : A -> Prop) l x : Forall P l -> x ∈ l -> P x.
Proof. intros H Hx. rewrite List.Forall_forall in H. apply H, elem_of_list_In, Hx. Qed.

(** ** C144: one winner *)
Definition is_setnx (k : gostr) (c : call) : bool := match c with CSetNX k' _ => bool_decide (k' = k) | _ => false end.
Definition is_get (k : gostr) (c : call) : bool := match c with CGet k' => bool_decide (k' = k) | _ => false end.
Lemma setnx_on k c : is_setnx k c = true -> onk k c = true.
Proof. destruct c; cbn; try discriminate. intros H. apply bool_decide_eq_true in H as ->. apply bool_decide_true. reflexivity. Qed.
Lemma get_on k c : is_get k c = true -> onk k c = true.
Proof. destruct c; cbn; try discriminate. intros H. apply bool_decide_eq_true in H as ->. apply bool_decide_true. reflexivity. Qed.
Definition nxcall (k : gostr) (c : call) : Prop := looks k c \/ exists s, c = CSetNX k s.
Lemma looks_setnx k c : looks k c -> is_setnx k c = false.
Proof. intros [->|[->|[->|(a & b & ->)]]]; reflexivity. Qed.
Lemma looks_get k c t v v' r : looks k c -> snd v = None -> abs1 c t v = Some (v', r) -> is_get k c = true -> r = RStr (shown v).
Proof. intros [->|[->|[->|(a & b & ->)]]] Hd; cbn [abs1 is_get]; try discriminate. rewrite purge_none by exact Hd. intros [= <- <-] _. reflexivity. Qed.

Lemma nx_taken k h : forall v v' rs x, Forall (fun tc => nxcall k (snd tc)) h -> fst v = Some x -> snd v = None -> runk h v = Some (v', rs) ->
  v' = v /\ Forall (fun y => snd y = RInt (0, None)) (sel (is_setnx k) (zip (map snd h) rs)) /\ Forall (fun y => snd y = RStr (shown v)) (sel (is_get k) (zip (map snd h) rs)).
Proof.
  induction h as [|[t c] h IH]; intros v v' rs x Hall Hx Hd E; cbn [runk] in E; [injection E as <- <-; cbn; auto|].
  pose proof (Forall_inv Hall) as Hc. apply Forall_inv_tail in Hall. cbn [snd] in Hc. destruct (abs1 c t v) as [[v1 r]|] eqn:E1; [|discriminate].
  destruct (runk h v1) as [[v2 rs2]|] eqn:E2; [|discriminate]. injection E as <- <-. destruct Hc as [Hc|[s ->]].
  - destruct (looks_step k c t v Hc Hd) as [r' Er]. rewrite E1 in Er. injection Er as -> <-. destruct (IH v v2 rs2 x Hall Hx Hd E2) as (-> & I2 & I3).
    split; [reflexivity|]. unfold sel in *. cbn [map snd zip zip_with List.filter fst]. rewrite (looks_setnx k c Hc). split; [exact I2|].
    destruct (is_get k c) eqn:Eg; [|exact I3]. constructor; [|exact I3]. eapply looks_get; eauto.
  - cbn [abs1] in E1. rewrite Hx in E1. injection E1 as <- <-. destruct (IH v v2 rs2 x Hall Hx Hd E2) as (-> & I2 & I3).
    split; [reflexivity|]. unfold sel in *. cbn [map snd zip zip_with List.filter fst is_setnx is_get]. rewrite bool_decide_true by reflexivity. split; [|exact I3]. constructor; [reflexivity|exact I2].
Qed.
Lemma nx_run k h : forall v v' rs, Forall (fun tc => nxcall k (snd tc)) h -> v = (None, None) -> runk h v = Some (v', rs) ->
  (List.filter (is_setnx k) (map snd h) = [] /\ sel (is_setnx k) (zip (map snd h) rs) = [] /\ v' = v /\ Forall (fun y => snd y = RStr ([], Some ErrKeyNil)) (sel (is_get k) (zip (map snd h) rs))) \/
  exists s losers, CSetNX k s ∈ List.filter (is_setnx k) (map snd h) /\ sel (is_setnx k) (zip (map snd h) rs) = (CSetNX k s, RInt (1, None)) :: losers /\ Forall (fun y => snd y = RInt (0, None)) losers /\ v' = put s v /\
    Forall (fun y => snd y = RStr ([], Some ErrKeyNil) \/ snd y = RStr (text s, None)) (sel (is_get k) (zip (map snd h) rs)).
Proof.
  induction h as [|[t c] h IH]; intros v v' rs Hall Hv E; cbn [runk] in E; [injection E as <- <-; left; cbn; auto|].
  pose proof (Forall_inv Hall) as Hc. apply Forall_inv_tail in Hall. cbn [snd] in Hc. destruct (abs1 c t v) as [[v1 r]|] eqn:E1; [|discriminate].
  destruct (runk h v1) as [[v2 rs2]|] eqn:E2; [|discriminate]. injection E as <- <-. unfold sel in *. cbn [map snd zip zip_with List.filter fst]. destruct Hc as [Hc|[s ->]].
  - destruct (looks_step k c t v Hc) as [r' Er]; [subst v; reflexivity|]. rewrite E1 in Er. injection Er as -> <-. rewrite (looks_setnx k c Hc).
    assert (Hg : is_get k c = true -> r = RStr ([], Some ErrKeyNil)). { intros Hg. assert (Hs : r = RStr (shown v)) by (eapply looks_get; eauto; subst v; reflexivity). rewrite Hs, Hv. reflexivity. }
    destruct (IH v v2 rs2 Hall Hv E2) as [(J0 & J1 & J2 & J3)|(s & losers & J0 & J1 & J2 & J3 & J4)].
    + left. repeat (split; [assumption|]). destruct (is_get k c); [constructor; auto|exact J3].
    + right. exists s, losers. repeat (split; [assumption|]). destruct (is_get k c); [constructor; auto|exact J4].
  - right. cbn [abs1] in E1. rewrite Hv in E1. cbn [fst] in E1. injection E1 as <- <-. cbn [is_setnx is_get]. rewrite bool_decide_true by reflexivity.
    destruct (nx_taken k h (put s (None, None)) v2 rs2 (CV (try_int64 s)) Hall eq_refl eq_refl E2) as (-> & I2 & I3).
    exists s, (sel (is_setnx k) (zip (map snd h) rs2)). split; [left|]. split; [reflexivity|]. split; [exact I2|]. split; [subst v; reflexivity|].
    unfold sel in I3. refine (List.Forall_impl _ _ I3). cbn beta. intros y Hy. right. rewrite Hy, shown_put. reflexivity.
Qed.

(** SetNX on a missing key by any number of goroutines: at any moment at most one has been told 1, the others 0.
    When all calls have returned exactly one has, and the key holds its value. *)
Theorem C144_one_winner w0 k s c evs :
  ready w0 -> stored w0 k = None -> deadline w0 k = None -> serial w0 evs ->
  calls_in (fun cl => ~ names cl k \/ nxcall k cl) evs -> cexec s (start w0) = Some (c, evs) ->
  (forall y, y ∈ sel (is_setnx k) (answered evs) -> snd y = RInt (1, None) \/ snd y = RInt (0, None)) /\
  (forall x y, ~ [(x, RInt (1, None)); (y, RInt (1, None))] ⊆+ sel (is_setnx k) (answered evs)) /\
  (c_th c = ∅ -> List.filter (is_setnx k) (issued evs) <> [] ->
   exists v losers, sel (is_setnx k) (answered evs) ≡ₚ (CSetNX k v, RInt (1, None)) :: losers /\ Forall (fun y => snd y = RInt (0, None)) losers /\
     stored (c_w c) k = Some (try_int64 v) /\ shows (c_w c) k (text v, None)).
Proof.
  intros Hr Hs Hd Hser Hin E.
  destruct (key_runs w0 k (nxcall k) s c evs Hr Hser) as (h & rs & v & R1 & R2 & R3 & R4); [|exact Hin|exact E|].
  { intros cl [H|[x ->]]; [apply looks_single, H|reflexivity]. }
  assert (Hv : view w0 k = (None, None)). { pose proof (view_none w0 k Hr Hs) as X. pose proof (view_dl w0 k Hr) as Y. destruct (view w0 k). cbn in *. congruence. }
  rewrite Hv in R2. destruct (R3 (is_setnx k) (setnx_on k)) as [S1 S2].
  assert (Hcase : (List.filter (is_setnx k) (map snd h) = [] /\ sel (is_setnx k) (zip (map snd h) rs) = []) \/
    exists s losers, sel (is_setnx k) (zip (map snd h) rs) = (CSetNX k s, RInt (1, None)) :: losers /\ Forall (fun y => snd y = RInt (0, None)) losers /\ v = put s (None, None)).
  { destruct (nx_run k h _ _ _ R1 eq_refl R2) as [(J0 & J1 & J2 & J3)|(x & losers & J0 & J1 & J2 & J3 & J4)]; [left; auto|right; eauto]. }
  split; [|split].
  - intros y Hy. apply (elem_of_submseteq _ _ _ Hy) in S1. destruct Hcase as [[_ J]|(x & losers & J1 & J2 & _)]; [rewrite J in S1; inversion S1|].
    rewrite J1 in S1. apply elem_of_cons in S1 as [->|S1]; [left; reflexivity|]. right. exact (fa_in _ _ _ J2 S1).
  - intros x y Hxy. rewrite S1 in Hxy. destruct Hcase as [[_ J]|(z & losers & J1 & J2 & _)]; [rewrite J in Hxy; apply submseteq_length in Hxy; cbn in Hxy; lia|].
    rewrite J1 in Hxy.
    assert (Hw : forall l : list (call * reply), Forall (fun y => snd y = RInt (0, None)) l -> List.filter (fun y => match snd y with RInt (1, None) => true | _ => false end) l = []).
    { intros l Hl. induction Hl as [|y0 l Hy Hl IH]; [reflexivity|]. cbn [List.filter]. rewrite Hy. exact IH. }
    apply (filter_sub (fun y => match snd y with RInt (1, None) => true | _ => false end)) in Hxy. cbn [List.filter snd] in Hxy. rewrite Hw in Hxy by exact J2. apply submseteq_length in Hxy. cbn in Hxy. lia.
  - intros He Hne. destruct (R4 He) as (P1 & P2 & P3). destruct (P3 (is_setnx k) (setnx_on k)) as [Q1 Q2].
    destruct Hcase as [[J _]|(z & losers & J1 & J2 & J3)]; [rewrite J in Q2; apply Permutation_nil in Q2; contradiction|].
    exists z, losers. rewrite J1 in Q1. split; [exact Q1|]. split; [exact J2|].
    pose proof (view_stored (c_w c) k P1) as Hst. rewrite P2, J3 in Hst. cbn [put fst] in Hst. split; [apply Hst|].
    apply shows_view; [exact P1|rewrite <- view_dl, P2, J3 by exact P1; reflexivity|]. rewrite P2, J3, shown_put. reflexivity.
Qed.
(** Nobody ever sees two different values. *)
Theorem C144_readers_agree w0 k s c evs x y :
  ready w0 -> stored w0 k = None -> deadline w0 k = None -> serial w0 evs ->
  calls_in (fun cl => ~ names cl k \/ nxcall k cl) evs -> cexec s (start w0) = Some (c, evs) ->
  (CGet k, RStr (x, None)) ∈ answered evs -> (CGet k, RStr (y, None)) ∈ answered evs -> x = y.
Proof.
  intros Hr Hs Hd Hser Hin E Hx Hy.
  destruct (key_runs w0 k (nxcall k) s c evs Hr Hser) as (h & rs & v & R1 & R2 & R3 & R4); [|exact Hin|exact E|].
  { intros cl [H|[z ->]]; [apply looks_single, H|reflexivity]. }
  assert (Hv : view w0 k = (None, None)). { pose proof (view_none w0 k Hr Hs) as X. pose proof (view_dl w0 k Hr) as Y. destruct (view w0 k). cbn in *. congruence. }
  rewrite Hv in R2. destruct (R3 (is_get k) (get_on k)) as [S1 _].
  assert (Hg : forall z, (CGet k, RStr (z, None)) ∈ answered evs -> (CGet k, RStr (z, None)) ∈ sel (is_get k) (zip (map snd h) rs)).
  { intros z Hz. eapply elem_of_submseteq; [|exact S1]. apply elem_of_list_In, filter_In. split; [apply elem_of_list_In, Hz|]. cbn. apply bool_decide_true. reflexivity. }
  apply Hg in Hx, Hy. destruct (nx_run k h _ _ _ R1 eq_refl R2) as [(J0 & J1 & J2 & J3)|(z & losers & J0 & J1 & J2 & J3 & J4)].
  - apply (fa_in _ _ _ J3) in Hx. discriminate.
  - apply (fa_in _ _ _ J4) in Hx, Hy. cbn [snd] in *. destruct Hx as [|Hx], Hy as [|Hy]; congruence.
Qed.
Definition c144_run := [AInv 1 (CSetNX (bs "l") (bs "one")); AInv 2 (CSetNX (bs "l") (bs "two")); AInv 3 (CGet (bs "l"))] ++ runs 2 1 ++ [AInv 4 (CSetNX (bs "l") (bs "four"))] ++ runs 2 2 ++ runs 4 3 ++ runs 3 4 ++ runs 1 3 ++ [ARet 1; ARet 2; ARet 3; ARet 4].
Example C144_ex :
  match cexec c144_run (start (new_world 0)) with
  | Some (c, evs) => answered evs = [(CSetNX (bs "l") (bs "one"), RInt (0, None)); (CSetNX (bs "l") (bs "two"), RInt (1, None)); (CGet (bs "l"), RStr (bs "two", None)); (CSetNX (bs "l") (bs "four"), RInt (0, None))] /\
      bool_decide (c_th c = ∅) = true
  | None => False end /\ stored (new_world 0) (bs "l") = None.
Proof. vm_compute. auto. Qed.

(** ** C145: one deleter *)
Definition is_del (k : gostr) (c : call) : bool := match c with CDel k' => bool_decide (k' = k) | _ => false end.
Lemma del_on k c : is_del k c = true -> onk k c = true.
Proof. destruct c; cbn; try discriminate. intros H. apply bool_decide_eq_true in H as ->. apply bool_decide_true. reflexivity. Qed.
Lemma looks_del k c : looks k c -> is_del k c = false.
Proof. intros [->|[->|[->|(a & b & ->)]]]; reflexivity. Qed.
Definition one_del (n : nat) : list reply := match n with O => [] | S n => RInt (1, None) :: repeat (RInt (0, None)) n end.
Lemma del_run k h : forall v v' rs, Forall (fun tc => looks k (snd tc) \/ snd tc = CDel k) h -> snd v = None -> runk h v = Some (v', rs) ->
  let n := length (List.filter (is_del k) (map snd h)) in
  map snd (sel (is_del k) (zip (map snd h) rs)) = match fst v with Some _ => one_del n | None => repeat (RInt (0, None)) n end /\ v' = if decide (n = 0%nat) then v else (None, None).
Proof.
  induction h as [|[t c] h IH]; intros v v' rs Hall Hd E; cbn [runk] in E; [injection E as <- <-; cbn; destruct (fst v); auto|].
  pose proof (Forall_inv Hall) as Hc. apply Forall_inv_tail in Hall. cbn [snd] in Hc. destruct (abs1 c t v) as [[v1 r]|] eqn:E1; [|discriminate].
  destruct (runk h v1) as [[v2 rs2]|] eqn:E2; [|discriminate]. injection E as <- <-. unfold sel in *. cbn [map snd zip zip_with List.filter fst]. destruct Hc as [Hc| ->].
  - destruct (looks_step k c t v Hc Hd) as [r' Er]. rewrite E1 in Er. injection Er as -> <-. rewrite (looks_del k c Hc). exact (IH v v2 rs2 Hall Hd E2).
  - cbn [abs1] in E1. rewrite purge_none in E1 by exact Hd. injection E1 as <- <-. cbn [is_del]. rewrite bool_decide_true by reflexivity.
    destruct (IH (None, None) v2 rs2 Hall eq_refl E2) as [I1 I2]. cbn [fst] in I1. cbn [map snd length]. rewrite I1. split; [destruct (fst v); reflexivity|].
    rewrite I2. destruct (decide _), (decide _); reflexivity || discriminate.
Qed.
(** Del of an existing key by any number of goroutines: one of them is told 1 and all others 0. *)
Theorem C145_one_deleter w0 k s c evs :
  ready w0 -> stored w0 k <> None -> deadline w0 k = None -> serial w0 evs ->
  calls_in (fun cl => ~ names cl k \/ looks k cl \/ cl = CDel k) evs -> cexec s (start w0) = Some (c, evs) ->
  let n := length (List.filter (is_del k) (issued evs)) in
  replies_to (is_del k) evs ⊆+ one_del n /\
  (c_th c = ∅ -> replies_to (is_del k) evs ≡ₚ one_del n /\ (n <> 0%nat -> stored (c_w c) k = None)).
Proof.
  intros Hr Hs Hd Hser Hin E n.
  destruct (key_runs w0 k (fun cl => looks k cl \/ cl = CDel k) s c evs Hr Hser) as (h & rs & v & R1 & R2 & R3 & R4); [|exact Hin|exact E|].
  { intros cl [H| ->]; [apply looks_single, H|reflexivity]. }
  assert (Hf : is_Some (fst (view w0 k))). { pose proof (view_stored w0 k Hr) as X. destruct (fst (view w0 k)); [eauto|contradiction]. }
  destruct Hf as [x Hx]. assert (Hvd : snd (view w0 k) = None) by (rewrite view_dl; auto). destruct (del_run k h _ _ _ R1 Hvd R2) as [I1 I2]. rewrite Hx in I1.
  destruct (R3 (is_del k) (del_on k)) as [S1 S2]. split.
  - unfold replies_to. etransitivity; [apply fmap_submseteq, S1|]. change (snd <$> sel (is_del k) (zip (map snd h) rs)) with (map snd (sel (is_del k) (zip (map snd h) rs))). rewrite I1.
    apply submseteq_length in S2. fold n in S2. revert S2. generalize (length (List.filter (is_del k) (map snd h))). intros m Hm.
    destruct m as [|m]; [apply submseteq_nil_l|]. destruct n as [|n']; [lia|]. cbn [one_del]. apply submseteq_skip. replace n' with (m + (n' - m))%nat by lia. rewrite repeat_app. apply submseteq_inserts_r. reflexivity.
  - intros He. destruct (R4 He) as (P1 & P2 & P3). destruct (P3 (is_del k) (del_on k)) as [Q1 Q2]. pose proof (Permutation_length Q2) as Hlen. fold n in Hlen. rewrite Hlen in I1, I2. split.
    + unfold replies_to. rewrite <- I1. apply Permutation_map, Q1.
    + intros Hn. rewrite decide_False in I2 by exact Hn. pose proof (view_stored (c_w c) k P1) as Hst. rewrite P2, I2 in Hst. exact Hst.
Qed.

Definition c145_world := match run_hist [(0, CSet (bs "k") (bs "a"))] (new_world 0) with Done w _ => w | _ => new_world 0 end.
Definition c145_run := [AInv 1 (CDel (bs "k")); AInv 2 (CDel (bs "k")); AInv 3 (CGet (bs "k"))] ++ runs 2 1 ++ [AInv 4 (CDel (bs "k"))] ++ runs 2 5 ++ runs 4 5 ++ runs 3 3 ++ runs 1 5 ++ [ARet 1; ARet 2; ARet 3; ARet 4].
Example C145_ex :
  match cexec c145_run (start c145_world) with
  | Some (c, evs) => answered evs = [(CDel (bs "k"), RInt (0, None)); (CDel (bs "k"), RInt (1, None)); (CGet (bs "k"), RStr ([], Some ErrKeyNil)); (CDel (bs "k"), RInt (0, None))] /\ bool_decide (c_th c = ∅) = true
  | None => False end /\ stored c145_world (bs "k") <> None /\ deadline c145_world (bs "k") = None.
Proof. vm_compute. repeat split; discriminate. Qed.
Example C145_ready : ready c145_world.
Proof. apply ready_reachable. exists 0, [(0, CSet (bs "k") (bs "a"))], [RStr (bs "OK", None)]. vm_compute. reflexivity. Qed.

(** ** C146: hand-over *)
Definition given (k : gostr) (c : call) : option gostr := match c with CGetSet k' v => if decide (k' = k) then Some v else None | _ => None end.
Definition is_getset (k : gostr) (c : call) : bool := match c with CGetSet k' _ => bool_decide (k' = k) | _ => false end.
Lemma getset_on k c : is_getset k c = true -> onk k c = true.
Proof. destruct c; cbn; try discriminate. intros H. apply bool_decide_eq_true in H as ->. apply bool_decide_true. reflexivity. Qed.
Lemma looks_getset k c : looks k c -> is_getset k c = false.
Proof. intros [->|[->|[->|(a & b & ->)]]]; reflexivity. Qed.
Lemma given_filter k l : omap (given k) (List.filter (is_getset k) l) = omap (given k) l.
Proof.
  induction l as [|c l IH]; [reflexivity|]. cbn [List.filter omap list_omap]. destruct (is_getset k c) eqn:E.
  - cbn [omap list_omap]. rewrite IH. reflexivity.
  - rewrite IH. destruct c; try reflexivity. cbn in E |- *. apply bool_decide_eq_false in E. rewrite decide_False by exact E. reflexivity.
Qed.
Lemma getset_run k h : forall v v' rs, Forall (fun tc => looks k (snd tc) \/ exists s, snd tc = CGetSet k s) h -> snd v = None -> runk h v = Some (v', rs) ->
  snd v' = None /\
  map snd (sel (is_getset k) (zip (map snd h) rs)) ++ [RStr (shown v')] = RStr (shown v) :: map (fun x => RStr (text x, None)) (omap (given k) (map snd h)).
Proof.
  induction h as [|[t c] h IH]; intros v v' rs Hall Hd E; cbn [runk] in E; [injection E as <- <-; auto|].
  pose proof (Forall_inv Hall) as Hc. apply Forall_inv_tail in Hall. cbn [snd] in Hc. destruct (abs1 c t v) as [[v1 r]|] eqn:E1; [|discriminate].
  destruct (runk h v1) as [[v2 rs2]|] eqn:E2; [|discriminate]. injection E as <- <-. unfold sel in *. cbn [map snd zip zip_with List.filter fst omap list_omap]. destruct Hc as [Hc|[s ->]].
  - destruct (looks_step k c t v Hc Hd) as [r' Er]. rewrite E1 in Er. injection Er as -> <-. rewrite (looks_getset k c Hc).
    replace (given k c) with (@None gostr) by (destruct Hc as [->|[->|[->|(a & b & ->)]]]; reflexivity). exact (IH v v2 rs2 Hall Hd E2).
  - cbn [abs1] in E1. rewrite purge_none in E1 by exact Hd. injection E1 as <- <-. cbn [is_getset given]. rewrite bool_decide_true, decide_True by reflexivity.
    destruct (IH (put s v) v2 rs2 Hall Hd E2) as [I1 I2]. split; [exact I1|]. cbn [map snd app]. f_equal. rewrite I2, shown_put. reflexivity.
Qed.
(** GetSet by any number of goroutines passes the values on: what the callers receive, together with what the key shows at
    the end, is what the key showed at first together with what they gave; nothing is lost or handed out twice. *)
Theorem C146_hand_over w0 k s c evs g :
  ready w0 -> deadline w0 k = None -> shows w0 k g -> serial w0 evs ->
  calls_in (fun cl => ~ names cl k \/ looks k cl \/ exists v, cl = CGetSet k v) evs -> cexec s (start w0) = Some (c, evs) ->
  replies_to (is_getset k) evs ⊆+ RStr g :: map (fun v => RStr (text v, None)) (omap (given k) (issued evs)) /\
  (c_th c = ∅ -> exists g', shows (c_w c) k g' /\
    replies_to (is_getset k) evs ++ [RStr g'] ≡ₚ RStr g :: map (fun v => RStr (text v, None)) (omap (given k) (issued evs))).
Proof.
  intros Hr Hd Hg Hser Hin E. apply shows_view in Hg; auto. subst g.
  destruct (key_runs w0 k (fun cl => looks k cl \/ exists v, cl = CGetSet k v) s c evs Hr Hser) as (h & rs & v & R1 & R2 & R3 & R4); [|exact Hin|exact E|].
  { intros cl [H|[x ->]]; [apply looks_single, H|reflexivity]. }
  assert (Hvd : snd (view w0 k) = None) by (rewrite view_dl; auto). destruct (getset_run k h _ _ _ R1 Hvd R2) as [I1 I2]. destruct (R3 (is_getset k) (getset_on k)) as [S1 S2]. split.
  - unfold replies_to. etransitivity; [apply fmap_submseteq, S1|]. change (snd <$> sel (is_getset k) (zip (map snd h) rs)) with (map snd (sel (is_getset k) (zip (map snd h) rs))).
    transitivity (map snd (sel (is_getset k) (zip (map snd h) rs)) ++ [RStr (shown v)]); [apply submseteq_inserts_r; reflexivity|]. rewrite I2. apply submseteq_skip, fmap_submseteq.
    rewrite <- (given_filter k (map snd h)), <- (given_filter k (issued evs)). apply submseteq_Permutation in S2 as (x & S2). rewrite (omap_perm _ _ _ S2), omap_app. apply submseteq_inserts_r. reflexivity.
  - intros He. destruct (R4 He) as (P1 & P2 & P3). destruct (P3 (is_getset k) (getset_on k)) as [Q1 Q2]. exists (shown v). split.
    + apply shows_view; [exact P1|rewrite <- view_dl, P2 by exact P1; exact I1|rewrite P2; reflexivity].
    + unfold replies_to. fold (sel (is_getset k) (answered evs)). rewrite Q1, I2. apply perm_skip, Permutation_map.
      rewrite <- (given_filter k (map snd h)), <- (given_filter k (issued evs)). apply omap_perm, Q2.
Qed.
Definition c146_run := [AInv 1 (CGetSet (bs "k") (bs "b")); AInv 2 (CGetSet (bs "k") (bs "c"))] ++ runs 2 5 ++ [AInv 3 (CGetSet (bs "k") (bs "d"))] ++ runs 3 5 ++ runs 1 5 ++ [ARet 1; ARet 2; ARet 3].
Example C146_ex :
  match cexec c146_run (start c145_world) with
  | Some (c, evs) => answered evs = [(CGetSet (bs "k") (bs "b"), RStr (bs "d", None)); (CGetSet (bs "k") (bs "c"), RStr (bs "a", None)); (CGetSet (bs "k") (bs "d"), RStr (bs "c", None))] /\
      answer 9 (CGet (bs "k")) (c_w c) = Some (RStr (bs "b", None)) /\ bool_decide (c_th c = ∅) = true
  | None => False end /\ answer 0 (CGet (bs "k")) c145_world = Some (RStr (bs "a", None)).
Proof. vm_compute. auto. Qed.

(** ** C147: appending *)
Definition added (k : gostr) (c : call) : option gostr := match c with CAppend k' v => if decide (k' = k) then Some v else None | _ => None end.
Definition is_append (k : gostr) (c : call) : bool := match c with CAppend k' _ => bool_decide (k' = k) | _ => false end.
(** the lengths reached when the pieces are appended in this order *)
Fixpoint lengths (o : gostr) (l : list gostr) : list reply :=
  match l with [] => [] | x :: l => RInt (zlen (o ++ x), None) :: lengths (o ++ x) l end.
(** the text of the key; a missing key counts as the empty text *)
Definition has_text (w : world) (k : gostr) (o : gostr) : Prop := shows w k (o, None) \/ (stored w k = None /\ o = []).
Lemma append_on k c : is_append k c = true -> onk k c = true.
Proof. destruct c; cbn; try discriminate. intros H. apply bool_decide_eq_true in H as ->. apply bool_decide_true. reflexivity. Qed.
Lemma looks_append k c : looks k c -> is_append k c = false.
Proof. intros [->|[->|[->|(a & b & ->)]]]; reflexivity. Qed.
Lemma added_filter k l : omap (added k) (List.filter (is_append k) l) = omap (added k) l.
Proof.
  induction l as [|c l IH]; [reflexivity|]. cbn [List.filter omap list_omap]. destruct (is_append k c) eqn:E.
  - cbn [omap list_omap]. rewrite IH. reflexivity.
  - rewrite IH. destruct c; try reflexivity. cbn in E |- *. apply bool_decide_eq_false in E. rewrite decide_False by exact E. reflexivity.
Qed.
Definition vtext (v : kview) (o : gostr) : Prop := (fst v = None /\ o = []) \/ exists x, fst v = Some x /\ fmt_cell x = Some o.
Lemma append_run k h : forall v v' rs o, Forall (fun tc => looks k (snd tc) \/ exists s, snd tc = CAppend k s) h -> snd v = None -> vtext v o ->
  (forall i, plain (o ++ concat (take i (omap (added k) (map snd h))))) -> runk h v = Some (v', rs) ->
  let l := omap (added k) (map snd h) in
  map snd (sel (is_append k) (zip (map snd h) rs)) = lengths o l /\
  v' = match l with [] => v | _ => put (o ++ concat l) v end /\
  Forall (fun y => snd y = RStr (shown v) \/ exists i, snd y = RStr (o ++ concat (take i l), None)) (sel (is_get k) (zip (map snd h) rs)).
Proof.
  induction h as [|[t c] h IH]; intros v v' rs o Hall Hd Ho Hpl E; cbn [runk] in E; [injection E as <- <-; cbn; auto|].
  pose proof (Forall_inv Hall) as Hc. apply Forall_inv_tail in Hall. cbn [snd] in Hc. destruct (abs1 c t v) as [[v1 r]|] eqn:E1; [|discriminate].
  destruct (runk h v1) as [[v2 rs2]|] eqn:E2; [|discriminate]. injection E as <- <-. unfold sel in *. cbn [map snd zip zip_with List.filter fst omap list_omap] in *. destruct Hc as [Hc|[s ->]].
  - destruct (looks_step k c t v Hc Hd) as [r' Er]. rewrite E1 in Er. injection Er as -> <-. rewrite (looks_append k c Hc).
    replace (added k c) with (@None gostr) in * by (destruct Hc as [->|[->|[->|(a & b & ->)]]]; reflexivity).
    destruct (IH v v2 rs2 o Hall Hd Ho Hpl E2) as (I1 & I2 & I3). split; [exact I1|]. split; [exact I2|].
    destruct (is_get k c) eqn:Eg; [|exact I3]. constructor; [|exact I3]. left. cbn [snd]. eapply looks_get; eauto.
  - cbn [is_append added is_get] in *. rewrite decide_True in * by reflexivity. rewrite bool_decide_true by reflexivity.
    assert (Hst : v1 = put (o ++ s) v /\ r = RInt (zlen (o ++ s), None)).
    { cbn [abs1] in E1. rewrite purge_none in E1 by exact Hd. destruct Ho as [[Hf ->]|(x & Hf & Hx)]; rewrite Hf in E1; [|rewrite Hx in E1]; injection E1 as <- <-; auto. }
    destruct Hst as [-> ->]. set (l := omap (added k) (map snd h)) in *.
    assert (Hpl' : forall i, plain ((o ++ s) ++ concat (take i l))). { intros i. specialize (Hpl (S i)). cbn [take concat] in Hpl. rewrite app_assoc in Hpl. exact Hpl. }
    assert (Hpo : plain (o ++ s)). { specialize (Hpl' 0%nat). cbn in Hpl'. rewrite app_nil_r in Hpl'. exact Hpl'. }
    destruct (IH (put (o ++ s) v) v2 rs2 (o ++ s) Hall Hd) as (I1 & I2 & I3); [right; eexists; split; [reflexivity|]; cbn; rewrite fmt_try; f_equal; exact Hpo|exact Hpl'|exact E2|].
    cbn [map snd lengths]. split; [f_equal; exact I1|]. cbn [concat]. rewrite app_assoc. fold l in I2, I3. split.
    + rewrite I2. destruct l; [cbn; rewrite app_nil_r; reflexivity|reflexivity].
    + refine (List.Forall_impl _ _ I3). cbn beta. intros y [Hy|[i Hy]]; right.
      * exists 1%nat. rewrite Hy, shown_put. unfold plain in Hpo. rewrite Hpo. cbn. rewrite app_nil_r. reflexivity.
      * exists (S i). cbn [take concat]. rewrite app_assoc. exact Hy.
Qed.
Lemma omap_sub {A B} (f : A -> option B) l l' : l ⊆+ l' -> omap f l ⊆+ omap f l'.
Proof. intros H. apply submseteq_Permutation in H as (x & H). rewrite (omap_perm _ _ _ H), omap_app. apply submseteq_inserts_r. reflexivity. Qed.
(** Append by any number of goroutines loses nothing: the pieces end up in the key one after the other, in one order, and every caller
    is told the length up to and including its piece; whoever looks meanwhile sees the pieces so far. Texts that the cache would
    reformat as numbers are excluded ([plain], see C06). *)
Theorem C147_appends_add_up w0 k s c evs o :
  ready w0 -> deadline w0 k = None -> has_text w0 k o -> serial w0 evs ->
  calls_in (fun cl => ~ names cl k \/ looks k cl \/ exists v, cl = CAppend k v) evs ->
  (forall l, l ⊆+ omap (added k) (issued evs) -> plain (o ++ concat l)) ->
  cexec s (start w0) = Some (c, evs) ->
  exists l, l ⊆+ omap (added k) (issued evs) /\
    replies_to (is_append k) evs ⊆+ lengths o l /\
    (forall r, (CGet k, r) ∈ answered evs -> (stored w0 k = None /\ r = RStr ([], Some ErrKeyNil)) \/ exists i, r = RStr (o ++ concat (take i l), None)) /\
    (c_th c = ∅ -> l ≡ₚ omap (added k) (issued evs) /\ replies_to (is_append k) evs ≡ₚ lengths o l /\ has_text (c_w c) k (o ++ concat l)).
Proof.
  intros Hr Hd Ho Hser Hin Hpl E.
  destruct (key_runs w0 k (fun cl => looks k cl \/ exists v, cl = CAppend k v) s c evs Hr Hser) as (h & rs & v & R1 & R2 & R3 & R4); [|exact Hin|exact E|].
  { intros cl [H|[x ->]]; [apply looks_single, H|reflexivity]. }
  assert (Hvd : snd (view w0 k) = None) by (rewrite view_dl; auto).
  assert (Hvt : vtext (view w0 k) o /\ (shown (view w0 k) = (o, None) \/ stored w0 k = None /\ shown (view w0 k) = ([], Some ErrKeyNil))).
  { destruct Ho as [Ho|[Ho ->]].
    - apply shows_view in Ho; auto. split; [|left; congruence]. right. unfold shown, fmt_cret in Ho. destruct (fst (view w0 k)) as [x|]; [|discriminate]. exists x. split; [reflexivity|]. destruct (fmt_cell x); congruence.
    - pose proof (view_none w0 k Hr Ho) as Hn. split; [left; auto|]. right. split; [exact Ho|]. unfold shown. rewrite Hn. reflexivity. }
  destruct Hvt as [Hvt Hsh]. destruct (R3 (is_append k) (append_on k)) as [S1 S2].
  set (l := omap (added k) (map snd h)).
  assert (Hl : l ⊆+ omap (added k) (issued evs)). { unfold l. rewrite <- (added_filter k (map snd h)), <- (added_filter k (issued evs)). apply omap_sub, S2. }
  assert (Hpi : forall i, plain (o ++ concat (take i (omap (added k) (map snd h))))).
  { intros i. apply Hpl. etransitivity; [|exact Hl]. unfold l. rewrite <- (take_drop i (omap (added k) (map snd h))) at 2. apply submseteq_inserts_r. reflexivity. }
  destruct (append_run k h _ _ _ o R1 Hvd Hvt Hpi R2) as (I1 & I2 & I3).
  fold l in I1, I2, I3. exists l. split; [exact Hl|]. split; [|split].
  - unfold replies_to. etransitivity; [apply fmap_submseteq, S1|]. change (snd <$> sel (is_append k) (zip (map snd h) rs)) with (map snd (sel (is_append k) (zip (map snd h) rs))). rewrite I1. reflexivity.
  - intros r Hg. destruct (R3 (is_get k) (get_on k)) as [G1 _].
    assert (Hi : (CGet k, r) ∈ sel (is_get k) (zip (map snd h) rs)). { eapply elem_of_submseteq; [|exact G1]. apply elem_of_list_In, filter_In. split; [apply elem_of_list_In, Hg|]. cbn. apply bool_decide_true. reflexivity. }
    pose proof (fa_in _ _ _ I3 Hi) as Hy. cbn [snd] in Hy. destruct Hy as [->|Hy]; [|right; exact Hy]. destruct Hsh as [Hs|[Hs1 Hs2]]; [right; exists 0%nat; rewrite Hs; cbn; rewrite app_nil_r; reflexivity|left; rewrite Hs2; auto].
  - intros He. destruct (R4 He) as (P1 & P2 & P3). destruct (P3 (is_append k) (append_on k)) as [Q1 Q2]. split; [|split].
    + unfold l. rewrite <- (added_filter k (map snd h)), <- (added_filter k (issued evs)). apply omap_perm, Q2.
    + unfold replies_to. rewrite <- I1. apply Permutation_map, Q1.
    + assert (Hdl : deadline (c_w c) k = None). { rewrite <- view_dl, P2 by exact P1. rewrite I2. destruct l; exact Hvd. }
      destruct l as [|y l'] eqn:El.
      * cbn [concat]. rewrite app_nil_r. subst v. destruct Ho as [Ho|[Ho ->]]; [left|right].
        -- apply shows_view; auto. apply shows_view in Ho; auto. rewrite P2. exact Ho.
        -- split; [|reflexivity]. pose proof (view_stored (c_w c) k P1) as X. rewrite P2, (view_none w0 k Hr Ho) in X. exact X.
      * left. apply shows_view; auto. rewrite P2, I2, shown_put. f_equal. symmetry. apply Hpl. exact Hl.
Qed.
Definition c147_run := [AInv 1 (CAppend (bs "k") (bs "bb")); AInv 2 (CAppend (bs "k") (bs "c"))] ++ runs 2 5 ++ [AInv 3 (CGet (bs "k"))] ++ runs 3 4 ++ runs 1 5 ++ [ARet 1; ARet 2; ARet 3].
Example C147_ex :
  match cexec c147_run (start c145_world) with
  | Some (c, evs) => answered evs = [(CAppend (bs "k") (bs "bb"), RInt (4, None)); (CAppend (bs "k") (bs "c"), RInt (2, None)); (CGet (bs "k"), RStr (bs "ac", None))] /\
      answer 9 (CGet (bs "k")) (c_w c) = Some (RStr (bs "acbb", None)) /\ bool_decide (c_th c = ∅) = true /\
      map text [bs "a"; bs "ac"; bs "abb"; bs "acbb"; bs "abbc"] = [bs "a"; bs "ac"; bs "abb"; bs "acbb"; bs "abbc"]
  | None => False end.
Proof. vm_compute. auto. Qed.

(** ** C148: setting and getting *)
Definition putting (k : gostr) (c : call) : option gostr := match c with CSet k' v => if decide (k' = k) then Some v else None | _ => None end.
Definition is_set (k : gostr) (c : call) : bool := match c with CSet k' _ => bool_decide (k' = k) | _ => false end.
Lemma set_on k c : is_set k c = true -> onk k c = true.
Proof. destruct c; cbn; try discriminate. intros H. apply bool_decide_eq_true in H as ->. apply bool_decide_true. reflexivity. Qed.
Lemma looks_put k c : looks k c -> putting k c = None.
Proof. intros [->|[->|[->|(a & b & ->)]]]; reflexivity. Qed.
Lemma set_run k h : forall v v' rs, Forall (fun tc => looks k (snd tc) \/ exists s, snd tc = CSet k s) h -> snd v = None -> runk h v = Some (v', rs) ->
  let l := omap (putting k) (map snd h) in
  snd v' = None /\ (shown v' = match list.last l with None => shown v | Some x => (text x, None) end) /\
  Forall (fun y => snd y = RStr (shown v) \/ exists x, x ∈ l /\ snd y = RStr (text x, None)) (sel (is_get k) (zip (map snd h) rs)).
Proof.
  induction h as [|[t c] h IH]; intros v v' rs Hall Hd E; cbn [runk] in E; [injection E as <- <-; cbn; auto|].
  pose proof (Forall_inv Hall) as Hc. apply Forall_inv_tail in Hall. cbn [snd] in Hc. destruct (abs1 c t v) as [[v1 r]|] eqn:E1; [|discriminate].
  destruct (runk h v1) as [[v2 rs2]|] eqn:E2; [|discriminate]. injection E as <- <-. unfold sel in *. cbn [map snd zip zip_with List.filter fst omap list_omap] in *. destruct Hc as [Hc|[s ->]].
  - destruct (looks_step k c t v Hc Hd) as [r' Er]. rewrite E1 in Er. injection Er as -> <-. rewrite (looks_put k c Hc).
    destruct (IH v v2 rs2 Hall Hd E2) as (I1 & I2 & I3). split; [exact I1|]. split; [exact I2|].
    destruct (is_get k c) eqn:Eg; [|exact I3]. constructor; [|exact I3]. left. cbn [snd]. eapply looks_get; eauto.
  - cbn [putting is_get] in *. rewrite decide_True by reflexivity. cbn [abs1] in E1. injection E1 as <- <-.
    destruct (IH (put s v) v2 rs2 Hall Hd E2) as (I1 & I2 & I3). split; [exact I1|]. rewrite shown_put in I2. split.
    + rewrite I2. destruct (omap (putting k) (map snd h)) as [|y l]; [reflexivity|]. change (list.last (s :: y :: l)) with (list.last (y :: l)). destruct (list.last (y :: l)) eqn:El; [reflexivity|]. apply last_None in El. discriminate.
    + refine (List.Forall_impl _ _ I3). cbn beta. intros y [Hy|(x & Hx & Hy)]; right.
      * exists s. split; [left|]. rewrite Hy, shown_put. reflexivity.
      * exists x. split; [right; exact Hx|exact Hy].
Qed.
(** Set and Get by any number of goroutines: a Get returns what the key showed at first or a value given to a Set,
    and once a Set has returned, a Get that starts later returns a value given to a Set. *)
Theorem C148_reads_see_writes w0 k s c e1 e2 g r :
  ready w0 -> deadline w0 k = None -> shows w0 k g -> serial w0 (e1 ++ e2) ->
  calls_in (fun cl => ~ names cl k \/ looks k cl \/ exists v, cl = CSet k v) (e1 ++ e2) -> cexec s (start w0) = Some (c, e1 ++ e2) ->
  (CGet k, r) ∈ answered e2 ->
  (r = RStr g /\ (forall v r', (CSet k v, r') ∉ answered e1)) \/ exists v, CSet k v ∈ issued (e1 ++ e2) /\ r = RStr (text v, None).
Proof.
  intros Hr Hd Hg Hser Hin E Ha. apply shows_view in Hg; auto. subst g.
  destruct (on_key2 w0 k s c e1 e2 Hr Hser) as (h1 & rs1 & v1 & h2 & rs2 & v2 & R1 & T1 & R2 & T2 & R3 & R4 & R5 & T5 & _); [|exact E|].
  { intros i cl Hi. destruct (Hin i cl Hi) as [?|[?|[x ->]]]; [auto|right; apply looks_single; auto|right; reflexivity]. }
  pose proof (on_class _ _ _ _ Hin R3 R4) as Hk. apply Forall_app in Hk as [K1 K2].
  assert (Hvd : snd (view w0 k) = None) by (rewrite view_dl; auto).
  destruct (set_run k h1 _ _ _ K1 Hvd R1) as (I1 & I2 & _). destruct (set_run k h2 _ _ _ K2 I1 T1) as (_ & _ & J3).
  assert (Hiss : forall x, x ∈ omap (putting k) (map snd (h1 ++ h2)) -> CSet k x ∈ issued (e1 ++ e2)).
  { intros x Hx. apply elem_of_list_omap in Hx as (cl & Hcl & Hx). apply (elem_of_submseteq _ _ _ Hcl) in R4. apply elem_of_list_In, filter_In in R4 as [R4 _]. apply elem_of_list_In in R4.
    destruct cl; cbn in Hx; try discriminate. destruct (decide _) as [->|]; [|discriminate]. injection Hx as ->. exact R4. }
  rewrite map_app, omap_app in Hiss.
  assert (Hi : (CGet k, r) ∈ sel (is_get k) (zip (map snd h2) rs2)).
  { apply (filter_sub (fun x => is_get k (fst x))) in T5. eapply elem_of_submseteq; [|exact T5]. rewrite (filter_on k (is_get k)) by apply get_on.
    apply elem_of_list_In, filter_In. split; [apply elem_of_list_In, Ha|]. cbn. apply bool_decide_true. reflexivity. }
  pose proof (fa_in _ _ _ J3 Hi) as Hy. cbn [snd] in Hy. destruct Hy as [->|(x & Hx & ->)]; [|right; exists x; split; [apply Hiss, elem_of_app; right; exact Hx|reflexivity]].
  rewrite I2. destruct (list.last (omap (putting k) (map snd h1))) as [x|] eqn:El.
  - right. exists x. split; [apply Hiss, elem_of_app; left|reflexivity]. apply last_Some in El as [l' ->]. apply elem_of_app. right. left.
  - left. split; [reflexivity|]. intros v r' Hv. apply last_None in El.
    assert (Hs : (CSet k v, r') ∈ zip (map snd h1) rs1).
    { eapply elem_of_submseteq; [|exact R5]. apply elem_of_list_In, filter_In. split; [apply elem_of_list_In, Hv|]. apply bool_decide_true. reflexivity. }
    apply elem_of_zip_l in Hs. assert (Hx : v ∈ omap (putting k) (map snd h1)). { apply elem_of_list_omap. exists (CSet k v). split; [exact Hs|]. cbn. apply decide_True. reflexivity. }
    rewrite El in Hx. inversion Hx.
Qed.
Definition c148_run := [AInv 1 (CSet (bs "k") (bs "b")); AInv 2 (CGet (bs "k"))] ++ runs 2 4 ++ runs 1 3 ++ [ARet 1; ARet 2; AInv 3 (CGet (bs "k"))] ++ runs 3 4 ++ [ARet 3].
Example C148_ex :
  match cexec c148_run (start c145_world) with
  | Some (_, evs) => answered evs = [(CSet (bs "k") (bs "b"), RStr (bs "OK", None)); (CGet (bs "k"), RStr (bs "a", None)); (CGet (bs "k"), RStr (bs "b", None))] /\
      answered (drop 4 evs) = [(CGet (bs "k"), RStr (bs "b", None))] /\ answered (take 4 evs) = [(CSet (bs "k") (bs "b"), RStr (bs "OK", None)); (CGet (bs "k"), RStr (bs "a", None))]
  | None => False end.
Proof. vm_compute. auto. Qed.
(** The classes of calls are compatible with [serial]. *)
Example serial_ex : serial c145_world [EInv 1 (CSet (bs "k") (bs "b")); EInv 2 (CGet (bs "k")); EInv 3 (CIncr (bs "n"))].
Proof.
  right. split.
  - intros k. unfold deadline. assert (H : w_exp c145_world = Some ∅) by (vm_compute; reflexivity). rewrite H. apply lookup_empty.
  - intros i c H. repeat (apply elem_of_cons in H as [H|H]; [injection H as -> ->; exact I|]). inversion H.
Qed.
