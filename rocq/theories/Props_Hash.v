(** * Props_Hash: the hash calls (single caller) *)
From Verif Require Import Base GoFloat CacheModel CacheSpec.
From Verif Require Import CacheAbs CacheRefine CacheRefineH CacheMain CacheLib Props_String Props_Counter Props_Multi Props_Db.

(** Does HGet find the field? *)
Definition has_field (t : Z) (w : world) (k f : gostr) : bool :=
  match answer t (CHGet k f) w with Some (RStr (_, None)) => true | _ => false end.
(** The key is not stored, or stored as a hash. *)
Definition hash_or_absent (w : world) (k : gostr) : Prop :=
  stored w k = None \/ exists l, stored w k = Some (VHash l).

(** the object seen by a hash call *)
Definition obj (v : kview) : hobj := match fst v with Some (CH o) => o | _ => empty_hobj end.
Lemma empty_get f : o_get empty_hobj f = None.
Proof. reflexivity. Qed.
Definition is_ch (v : kview) : Prop := match fst v with Some (CV _) => False | _ => True end.
Lemma is_ch_iff w k : ready w -> hash_or_absent w k <-> is_ch (view w k).
Proof.
  intros Hr. unfold hash_or_absent, is_ch. pose proof (view_stored w k Hr) as Hv.
  destruct (fst (view w k)) as [[v|o]|].
  - destruct Hv as [Hv Hs]. split; [|tauto]. rewrite Hv. intros [H|[l H]]; [discriminate|]. injection H as ->. exact Hs.
  - destruct Hv as [Hv _]. split; auto.
  - split; auto.
Qed.
Lemma hget_obj w t k f : ready w -> is_ch (purge t (view w k)) ->
  answer t (CHGet k f) w = match o_get (obj (purge t (view w k))) f with Some s => ok_str s | None => err_str ErrKeyNil end.
Proof.
  intros Hr Hc. rewrite (answer_single _ k) by auto. cbn [abs1]. unfold wr, a_hread, is_ch, obj in *.
  destruct (fst (purge t (view w k))) as [[v|o]|]; [destruct Hc| |reflexivity]. cbn [snd]. destruct (o_get o f); reflexivity.
Qed.
Lemma has_field_obj w t k f : ready w -> is_ch (purge t (view w k)) ->
  has_field t w k f = match o_get (obj (purge t (view w k))) f with Some s => true | None => false end.
Proof. intros Hr Hc. unfold has_field. rewrite hget_obj by auto. destruct (o_get _ f); reflexivity. Qed.
Lemma ch_purge t v : is_ch v -> is_ch (purge t v).
Proof. destruct v as [[c|] [dl|]]; cbn; auto. destruct (dl <? t); cbn; auto. Qed.
Lemma o_get_is o f : match o_get o f with Some _ => true | None => false end = match h_map o !! f with Some _ => true | None => false end.
Proof. unfold o_get. destruct (h_map o !! f); reflexivity. Qed.
Lemma o_set_eq o f s : o_get (o_set o f s) f = Some (text s).
Proof. unfold o_get, o_set. cbn [h_map]. rewrite lookup_insert, fmt_try. reflexivity. Qed.
Lemma o_set_ne o f s f' : f' <> f -> o_get (o_set o f s) f' = o_get o f'.
Proof. intros H. unfold o_get, o_set. cbn [h_map]. rewrite lookup_insert_ne by auto. reflexivity. Qed.

(** a successful hash write *)
Lemma hwrite_view {A} (z : A) g v : is_ch v -> fst (a_hwrite z g v) = (Some (CH (fst (g (obj v)))), snd v) /\ snd (a_hwrite z g v) = snd (g (obj v)).
Proof. unfold is_ch, obj, a_hwrite. destruct v as [[[x|o]|] e]; cbn [fst snd]; [tauto| |]; intros _; destruct (g _); auto. Qed.
(** what HGet shows after a write made the state of the key [(Some (CH o'), dl)] *)
Lemma hget_after w1 k t' o' : ready w1 -> ~ past w1 k t' -> fst (view w1 k) = Some (CH o') ->
  forall f, answer t' (CHGet k f) w1 = match o_get o' f with Some s => ok_str s | None => err_str ErrKeyNil end.
Proof.
  intros Hr Hp Hv f. rewrite hget_obj by (auto; rewrite purge_not_past by auto; unfold is_ch; rewrite Hv; exact I).
  rewrite purge_not_past by auto. unfold obj. rewrite Hv. reflexivity.
Qed.
Lemma past_eq w1 w k t' : deadline w1 k = deadline w k -> past w1 k t' <-> past w k t'.
Proof. unfold past. intros ->. tauto. Qed.
Lemma hget_before w t t' k f : ready w -> hash_or_absent w k -> ~ past w k t -> ~ past w k t' ->
  answer t' (CHGet k f) w = match o_get (obj (purge t (view w k))) f with Some s => ok_str s | None => err_str ErrKeyNil end.
Proof.
  intros Hr Hh Hp Hp'. apply (is_ch_iff w k Hr) in Hh. rewrite hget_obj by (auto using ch_purge). rewrite !purge_not_past by auto. reflexivity.
Qed.

(** ** C34 *)
Theorem C34_hset w t k f v :
  ready w -> hash_or_absent w k -> ~ past w k t ->
  exists w1, run_call t (CHSet k f v) w = Done w1 (RInt (if has_field t w k f then 0 else 1, None)) /\
    forall t', ~ past w k t' ->
      answer t' (CHGet k f) w1 = ok_str (text v) /\
      forall f', f' <> f -> answer t' (CHGet k f') w1 = answer t' (CHGet k f') w.
Proof.
  intros Hr Hh Hp. pose proof (proj1 (is_ch_iff w k Hr) Hh) as Hc.
  pose proof (ch_purge t _ Hc) as Hcp.
  destruct (hwrite_view 0 (fun o => (o_set o f v, (o_isnew o f, None : option goerr))) _ Hcp) as [H1 H2].
  destruct (run_single_ex (CHSet k f v) k t w _ _ Hr eq_refl eq_refl) as (w1 & E & Hr1 & Hv & Ho).
  rewrite H1 in Hv. rewrite H2 in E. cbn [fst snd] in Hv, E. exists w1. split.
  - rewrite E. do 2 f_equal. f_equal. rewrite has_field_obj, o_get_is by auto. unfold o_isnew.
    destruct (h_map _ !! f); reflexivity.
  - assert (Hd : deadline w1 k = deadline w k).
    { rewrite <- !view_dl, Hv by auto. cbn [snd]. rewrite purge_not_past by auto. reflexivity. }
    intros t' Hp'. assert (Hp1 : ~ past w1 k t') by (rewrite (past_eq w1 w) by exact Hd; exact Hp').
    split; [|intros f' Hne]; erewrite hget_after by (auto; rewrite Hv; reflexivity).
    + rewrite o_set_eq. reflexivity.
    + rewrite o_set_ne by auto. symmetry. apply hget_before; auto.
Qed.
(** On an expired key HSet starts a new hash without deadline. *)
Theorem C34_hset_expired w t k f v :
  ready w -> past w k t -> is_Some (stored w k) ->
  exists w1, run_call t (CHSet k f v) w = Done w1 (RInt (1, None)) /\ deadline w1 k = None /\
    forall t' f', answer t' (CHGet k f') w1 = if decide (f' = f) then ok_str (text v) else err_str ErrKeyNil.
Proof.
  intros Hr Hp [x Hx].
  assert (Hpv : purge t (view w k) = (None, None)).
  { destruct Hp as (dl & Hdl & Hlt). rewrite <- view_dl in Hdl by auto.
    pose proof (view_stored w k Hr) as Hvs. destruct (view w k) as [[c|] e]; [|congruence]. simpl in Hdl. subst. simpl.
    destruct (Z.ltb_spec dl t); [reflexivity|lia]. }
  destruct (run_single_ex (CHSet k f v) k t w _ _ Hr eq_refl eq_refl) as (w1 & E & Hr1 & Hv & Ho).
  rewrite Hpv in Hv, E. cbn in Hv, E. exists w1. split; [exact E|].
  assert (Hd : deadline w1 k = None) by (rewrite <- view_dl, Hv by auto; reflexivity). split; [exact Hd|].
  intros t' f'. assert (Hp1 : ~ past w1 k t') by (intros (dl & H & _); congruence).
  erewrite hget_after by (auto; rewrite Hv; reflexivity). case_decide as Hf.
  - subst. rewrite o_set_eq. reflexivity.
  - rewrite o_set_ne by auto. reflexivity.
Qed.
Example C34_nonvacuous : hash_or_absent demo (bs "h") /\ ~ past demo (bs "h") 9 /\
  replies [(9, CHSet (bs "h") (bs "g") (bs "07")); (9, CHGet (bs "h") (bs "g")); (9, CHGet (bs "h") (bs "f"))] demo =
  Some [RInt (1, None); RStr (bs "7", None); RStr (bs "v", None)].
Proof.
  split; [right; vm_compute; eauto|]. split; [|vm_compute; reflexivity]. intros (dl & H & _). vm_compute in H. discriminate.
Qed.

(** ** C35 *)
Theorem C35_hlen_refuted :
  exists k f v, replies [(1, CHSet k f v); (2, CHExists k f); (3, CHLen k); (4, CHGet k f)] (new_world 0) =
    Some [RInt (1, None); RInt (1, None); RInt (0, None); RStr (v, None)].
Proof. exists (bs "k"), (bs "f"), (bs "v"). vm_compute. reflexivity. Qed.

Definition lenok (o : hobj) : Prop := h_len o = wrap64 (Z.of_nat (size (h_map o))).
Definition lens (v : kview) : Prop := match fst v with Some (CH o) => lenok o | _ => True end.
Lemma lenok_empty : lenok empty_hobj.
Proof. reflexivity. Qed.
Lemma lenok_set o f s : lenok o -> lenok (o_set o f s).
Proof.
  unfold lenok, o_set, o_isnew. cbn [h_len h_map]. intros ->. rewrite wrap64_add_l. f_equal.
  destruct (h_map o !! f) eqn:E.
  - rewrite map_size_insert_Some by eauto. lia.
  - rewrite map_size_insert_None by auto. lia.
Qed.
Lemma lenok_mset fv : forall o n, lenok o -> lenok (fst (o_mset o fv n)).
Proof. induction fv as [|[f v] r IH]; intros o n Ho; [exact Ho|]. cbn. apply IH, lenok_set, Ho. Qed.
Lemma o_del_size fs : forall o n, Z.of_nat (size (h_map (fst (o_del o fs n)))) + snd (o_del o fs n) = Z.of_nat (size (h_map o)) + n /\
  h_len (fst (o_del o fs n)) = h_len o.
Proof.
  induction fs as [|f r IH]; intros o n; [auto|]. cbn [o_del]. destruct (o_get o f) eqn:E; [|apply IH].
  destruct (IH (HObj (delete f (h_map o)) (h_len o)) (n + 1)) as [H1 H2]. split; [|rewrite H2; reflexivity].
  rewrite H1. cbn [h_map]. unfold o_get in E. destruct (h_map o !! f) as [x|] eqn:Ex; [|discriminate].
  assert (Hs : size (h_map o) <> 0%nat). { intros H. apply map_size_empty_inv in H. rewrite H, lookup_empty in Ex. discriminate. }
  rewrite map_size_delete_Some by eauto. lia.
Qed.
Lemma lens_hwrite {A} (z : A) g v : (forall o, lenok o -> lenok (fst (g o))) -> lens v -> lens (fst (a_hwrite z g v)).
Proof.
  intros Hg H. unfold a_hwrite, lens in *. destruct v as [[[x|o]|] e]; cbn [fst snd] in *; auto.
  - specialize (Hg o H). destruct (g o); exact Hg.
  - specialize (Hg _ lenok_empty). destruct (g empty_hobj); exact Hg.
Qed.
Lemma lens_hread {A} (z : A) a g v : (forall o, lenok o -> lenok (fst (g o))) -> lens v -> lens (fst (a_hread z a g v)).
Proof.
  intros Hg H. unfold a_hread, lens in *. destruct v as [[[x|o]|] e]; cbn [fst snd] in *; auto.
  specialize (Hg o H). destruct (g o); exact Hg.
Qed.
Lemma lens_purge t v : lens v -> lens (purge t v).
Proof. destruct v as [[c|] [dl|]]; auto. cbn. destruct (dl <? t); [constructor|auto]. Qed.
Lemma lens_incr d v : lens v -> lens (fst (a_incr d v)).
Proof.
  intros H. unfold a_incr. destruct v as [[[x|o]|] e]; cbn [fst snd] in *; auto.
  destruct (incr_val x d) as [[y n]|]; exact I.
Qed.
(** all calls but HExists *)
Definition no_hexists (c : call) : Prop := match c with CHExists _ _ => False | _ => True end.
Lemma lens_abs1 c t v v' r : no_hexists c -> lens v -> abs1 c t v = Some (v', r) -> lens v'.
Proof.
  intros Hn Hv Ha. pose proof (lens_purge t v Hv) as Hp.
  destruct c; try destruct Hn; cbn [abs1] in Ha; try discriminate;
    try (injection Ha as <- _; first [exact I | exact Hp | exact (lens_incr _ _ Hv)]).
  - destruct (fst v); injection Ha as <- _; [exact Hv|exact I].
  - destruct (fst (purge t v)) as [x|]; [destruct (fmt_cell x)|]; injection Ha as <- _; auto; exact I.
  - destruct (pos <? 0); [injection Ha as <- _; exact Hv|].
    destruct (fst (purge t v)) as [x|]; [destruct (fmt_cell x)|destruct (pos >? max_alloc); [discriminate|]]; injection Ha as <- _; auto; exact I.
  - destruct (fst v) as [[x|o]|] eqn:E; [destruct x| |]; injection Ha as <- _; auto; exact I.
  - injection Ha as <- _. apply lens_hwrite; [|exact Hp]. intros o Ho. apply lenok_set, Ho.
  - injection Ha as <- _. apply lens_hwrite; [|exact Hp]. intros o Ho. destruct (h_map o !! f) eqn:E; [exact Ho|].
    unfold lenok in *. cbn [fst h_map h_len]. rewrite Ho, wrap64_add_l. f_equal. rewrite map_size_insert_None by auto. lia.
  - injection Ha as <- _. apply lens_hread; [|exact Hp]. intros o Ho. pose proof (o_del_size fs o 0) as [H1 H2].
    destruct (o_del o fs 0) as [o' n]. cbn [fst snd] in *. destruct (Z.eqb_spec n 0) as [->|]; unfold lenok in *.
    + rewrite H2, Ho. f_equal. lia.
    + cbn [h_len h_map]. rewrite H2, Ho. unfold Z.sub. rewrite wrap64_add_l. f_equal. lia.
  - injection Ha as <- _. apply lens_hread; [|exact Hp]. intros o Ho. exact Ho.
  - injection Ha as <- _. apply lens_hread; [|exact Hp]. intros o Ho. exact Ho.
  - injection Ha as <- _. apply lens_hwrite; [|exact Hp]. intros o Ho. unfold g_hincr.
    destruct (h_map o !! f) as [x|]; [destruct (hincr_val x d)|]; cbn [fst]; auto using lenok_set.
  - injection Ha as <- _. apply lens_hwrite; [|exact Hp]. intros o Ho. unfold g_hincr.
    destruct (h_map o !! f) as [x|]; [destruct (hincrf_val x d)|]; cbn [fst]; auto using lenok_set.
  - injection Ha as <- _. apply lens_hwrite; [|exact Hp]. intros o Ho. pose proof (lenok_mset fv o 0 Ho) as H.
    destruct (o_mset o fv 0) as [o' n]. exact H.
  - injection Ha as <- _. apply lens_hread; [|exact Hp]. intros o Ho. exact Ho.
  - destruct (fst (purge t v)) as [[x|o]|] eqn:E; try discriminate; injection Ha as <- _; exact Hp.
  - destruct (fst (purge t v)) as [[x|o]|] eqn:E; try discriminate; injection Ha as <- _; exact Hp.
  - destruct (fst (purge t v)) as [[x|o]|] eqn:E; try discriminate; injection Ha as <- _; exact Hp.
  - injection Ha as <- _. apply lens_hread; [|exact Hp]. intros o Ho. exact Ho.
Qed.
Lemma lens_abs c t V V' r : no_hexists c -> (forall k, lens (V k)) -> abs c t V = Some (V', r) -> forall k, lens (V' k).
Proof.
  intros Hn HV Ha.
  assert (Hu : forall V k x, (forall k, lens (V k)) -> lens x -> forall k', lens (upd V k x k')).
  { intros U k x HU Hx k'. unfold upd. destruct (decide (k' = k)); auto. }
  destruct (single_cases c) as [[k Hk]|Hc].
  - rewrite (abs_single c k t _ Hk) in Ha. destruct (abs1 c t (V k)) as [[x r0]|] eqn:E; [|discriminate].
    injection Ha as <- <-. apply Hu; [exact HV|]. eapply lens_abs1; eauto.
  - destruct c; try destruct Hc; cbn [abs] in Ha.
    + injection Ha as <- _. revert V HV. induction kv as [|[k v] kv IH]; intros V HV; [exact HV|]. cbn. apply IH; [exact I|]. apply Hu; [auto|exact I].
    + assert (G : forall kv n V, (forall k, lens (V k)) -> forall k, lens (fst (a_msetnx kv n V) k)).
      { clear - Hu. induction kv as [|[k v] kv IH]; intros n V HV; [exact HV|]. cbn. destruct (fst (V k)); apply IH; auto. apply Hu; [auto|exact I]. }
      specialize (G kv 0 V HV). destruct (a_msetnx kv 0 V). injection Ha as <- _. exact G.
    + assert (G : forall ks V, (forall k, lens (V k)) -> forall k, lens (fst (a_mget t ks V) k)).
      { clear - Hu. induction ks as [|k ks IH]; intros V HV; [exact HV|]. cbn. specialize (IH (upd V k (purge t (V k)))). 
        destruct (a_mget t ks _). apply IH, Hu; auto using lens_purge. }
      specialize (G ks V HV). destruct (a_mget t ks V). injection Ha as <- _. exact G.
    + injection Ha as <- _. intros k. exact I.
    + injection Ha as <- _. exact HV.
    + injection Ha as <- _. intros k. unfold a_cron. specialize (HV k). destruct (V k) as [[c|] e]; cbn [fst]; [|exact HV].
      destruct (zero_time <? t); [exact I|]. exact HV.
Qed.
Lemma lens_hist h : forall w w' rs, ready w -> (forall k, lens (view w k)) -> all_calls (fun _ c => no_hexists c) h ->
  run_hist h w = Done w' rs -> forall k, lens (view w' k).
Proof.
  induction h as [|[t c] h IH]; intros w w' rs Hr Hg Hall; simpl; [intros E; injection E as <- <-; auto|].
  destruct (run_call t c w) as [w1 x| |] eqn:E1; [|discriminate|discriminate].
  destruct (run_hist h w1) as [w2 xs| |] eqn:E2; [|discriminate|discriminate].
  intros E; injection E as <- <-. inversion_clear Hall as [|? ? H1 H2]. destruct (run_inv _ _ _ _ _ Hr E1) as (V' & Ha & Hr1 & Hv).
  eapply IH; [exact Hr1| |exact H2|exact E2]. intros k. rewrite Hv. eapply lens_abs; eauto.
Qed.
(** Full statement: for every reachable state.  Proved for the states reached without HExists.
    The fields are enumerated by [fs]; HLen is their number (below 2^63). *)
Theorem C35_hlen_partial t0 h w rs t k :
  run_hist h (new_world t0) = Done w rs -> all_calls (fun _ c => no_hexists c) h ->
  hash_or_absent w k ->
  exists fs, NoDup fs /\ (forall f, f ∈ fs <-> has_field t w k f = true) /\
             (zlen fs < 2 ^ 63 -> answer t (CHLen k) w = ok_int (zlen fs)).
Proof.
  intros E Hall Hh. pose proof (ready_hist _ _ _ _ (ready_new t0) E) as Hr.
  assert (HL : lens (view w k)) by (eapply lens_hist; [apply ready_new| |exact Hall|exact E]; intros; exact I).
  apply (is_ch_iff w k Hr) in Hh. pose proof (ch_purge t _ Hh) as Hc. pose proof (lens_purge t _ HL) as HLp.
  exists (map fst (map_to_list (h_map (obj (purge t (view w k)))))). split; [|split].
  - apply NoDup_fst_map_to_list.
  - intros f. rewrite has_field_obj, o_get_is by auto.
    split.
    + intros Hin. apply elem_of_list_fmap in Hin as ([f' x] & -> & Hin). apply elem_of_map_to_list in Hin. cbn [fst]. rewrite Hin. reflexivity.
    + destruct (h_map _ !! f) as [x|] eqn:Ex; [|discriminate]. intros _. apply elem_of_list_fmap. exists (f, x). split; [reflexivity|].
      apply elem_of_map_to_list, Ex.
  - intros Hb. rewrite (answer_single _ k) by auto. cbn [abs1]. unfold zlen in *. rewrite fmap_length in *.
    unfold wr, a_hread, lens, is_ch, obj in *. destruct (fst (purge t (view w k))) as [[v|o]|]; [destruct Hc| |reflexivity].
    cbn [snd fst]. rewrite HLp. unfold ok_int. do 3 f_equal. unfold size, map_size in *. apply wrap64_id, is_int64_iff. unfold min_int64, max_int64. lia.
Qed.
Example C35_nonvacuous :
  replies [(1, CHSet (bs "k") (bs "a") (bs "1")); (1, CHMSet (bs "k") [(bs "a", bs "2"); (bs "b", bs "2")]); (1, CHDel (bs "k") [bs "a"; bs "a"]); (2, CHLen (bs "k"))] (new_world 0) =
  Some [RInt (1, None); RInt (1, None); RInt (1, None); RInt (1, None)].
Proof. vm_compute. reflexivity. Qed.

(** ** C36 *)
Theorem C36_hexists_refuted :
  exists k f v, replies [(1, CHSet k f v); (3, CHLen k)] (new_world 0) = Some [RInt (1, None); RInt (1, None)] /\
                replies [(1, CHSet k f v); (2, CHExists k f); (3, CHLen k)] (new_world 0) = Some [RInt (1, None); RInt (1, None); RInt (0, None)].
Proof. exists (bs "k"), (bs "f"), (bs "v"). vm_compute. auto. Qed.

(** forget the length field *)
Definition er (v : kview) : kview :=
  match v with (Some (CH o), e) => (Some (CH (HObj (h_map o) 0)), e) | _ => v end.
Lemma er_cases v1 v2 : er v1 = er v2 -> v1 = v2 \/ exists m n1 n2 e, v1 = (Some (CH (HObj m n1)), e) /\ v2 = (Some (CH (HObj m n2)), e).
Proof.
  destruct v1 as [[[x|[m n]]|] e], v2 as [[[x'|[m' n']]|] e']; cbn; intros H; try discriminate H; auto.
  injection H as -> ->. right. eauto 10.
Qed.
Definition not_hlen (c : call) : Prop := match c with CHLen _ => False | _ => True end.
Lemma er_del fs m : forall n1 n2 c, snd (o_del (HObj m n1) fs c) = snd (o_del (HObj m n2) fs c) /\
  h_map (fst (o_del (HObj m n1) fs c)) = h_map (fst (o_del (HObj m n2) fs c)).
Proof.
  revert m. induction fs as [|f r IH]; intros m n1 n2 c; [auto|]. cbn [o_del]. unfold o_get. cbn [h_map h_len].
  destruct (m !! f); apply IH.
Qed.
Lemma er_mset fv m : forall n1 n2 c, snd (o_mset (HObj m n1) fv c) = snd (o_mset (HObj m n2) fv c) /\
  h_map (fst (o_mset (HObj m n1) fv c)) = h_map (fst (o_mset (HObj m n2) fv c)).
Proof.
  revert m. induction fv as [|[f v] r IH]; intros m n1 n2 c; [auto|]. cbn [o_mset]. unfold o_set, o_isnew. cbn [h_map h_len]. apply IH.
Qed.
Lemma er_abs1 c t v1 v2 : not_hlen c -> er v1 = er v2 ->
  match abs1 c t v1, abs1 c t v2 with
  | Some (a, r), Some (b, r') => r = r' /\ er a = er b
  | None, None => True
  | _, _ => False
  end.
Proof.
  intros Hn He. destruct (er_cases _ _ He) as [->|(m & n1 & n2 & e & -> & ->)].
  { destruct (abs1 c t v2) as [[a r]|]; auto. }
  destruct e as [dl|]; [destruct (dl <? t) eqn:El|].
  - destruct c; try destruct Hn; cbn; rewrite ?El; cbn; auto; try (destruct (pos <? 0); try destruct (pos >? max_alloc); auto; fail).
    all: try (destruct (abs1 _ t _) as [[? ?]|]; auto).
  - destruct c; try destruct Hn; cbn [abs1]; auto; cbn [purge]; rewrite ?El; cbn [fst snd put fmt_cell]; auto; try (destruct (pos <? 0); try destruct (pos >? max_alloc); auto; fail).
    all: unfold wr, a_hwrite, a_hread, a_incr, g_hincr, o_set, o_isnew, o_get; cbn [fst snd h_map h_len er]; auto.
    all: try (destruct (m !! f) as [x|]; cbn; auto; fail).
    all: try (destruct (m !! f) as [x|]; [destruct (hincr_val x d)|]; cbn; auto; fail).
    all: try (destruct (m !! f) as [x|]; [destruct (hincrf_val x d)|]; cbn; auto; fail).
    + destruct (er_del fs m n1 n2 0) as [A B]. destruct (o_del (HObj m n1) fs 0) as [o1 c1], (o_del (HObj m n2) fs 0) as [o2 c2].
      cbn [fst snd] in *. subst. split; [reflexivity|]. destruct (c2 =? 0); cbn [er fst snd h_map]; rewrite B; reflexivity.
    + destruct (er_mset fv m n1 n2 0) as [A B]. destruct (o_mset (HObj m n1) fv 0) as [o1 c1], (o_mset (HObj m n2) fv 0) as [o2 c2].
      cbn [fst snd] in *. subst. split; [reflexivity|]. cbn [er fst snd h_map]; rewrite B; reflexivity.
  - destruct c; try destruct Hn; cbn [abs1]; auto; cbn [purge]; rewrite ?El; cbn [fst snd put fmt_cell]; auto; try (destruct (pos <? 0); try destruct (pos >? max_alloc); auto; fail).
    all: unfold wr, a_hwrite, a_hread, a_incr, g_hincr, o_set, o_isnew, o_get; cbn [fst snd h_map h_len er]; auto.
    all: try (destruct (m !! f) as [x|]; cbn; auto; fail).
    all: try (destruct (m !! f) as [x|]; [destruct (hincr_val x d)|]; cbn; auto; fail).
    all: try (destruct (m !! f) as [x|]; [destruct (hincrf_val x d)|]; cbn; auto; fail).
    + destruct (er_del fs m n1 n2 0) as [A B]. destruct (o_del (HObj m n1) fs 0) as [o1 c1], (o_del (HObj m n2) fs 0) as [o2 c2].
      cbn [fst snd] in *. subst. split; [reflexivity|]. destruct (c2 =? 0); cbn [er fst snd h_map]; rewrite B; reflexivity.
    + destruct (er_mset fv m n1 n2 0) as [A B]. destruct (o_mset (HObj m n1) fv 0) as [o1 c1], (o_mset (HObj m n2) fv 0) as [o2 c2].
      cbn [fst snd] in *. subst. split; [reflexivity|]. cbn [er fst snd h_map]; rewrite B; reflexivity.
Qed.

Lemma er_abs c t V1 V2 : not_hlen c -> (forall k, er (V1 k) = er (V2 k)) ->
  match abs c t V1, abs c t V2 with
  | Some (A, r), Some (B, r') => r = r' /\ (forall k, er (A k) = er (B k))
  | None, None => True
  | _, _ => False
  end.
Proof.
  intros Hn He.
  assert (Hu : forall V1 V2 k x y, (forall k, er (V1 k) = er (V2 k)) -> er x = er y -> forall k', er (upd V1 k x k') = er (upd V2 k y k')).
  { intros U1 U2 k x y HU Hx k'. unfold upd. destruct (decide (k' = k)); auto. }
  assert (Hp : forall v1 v2 s, er v1 = er v2 -> er (put s v1) = er (put s v2)).
  { intros v1 v2 s H. destruct (er_cases _ _ H) as [->|(m & n1 & n2 & e & -> & ->)]; reflexivity. }
  assert (Hf : forall v1 v2, er v1 = er v2 -> match fst v1, fst v2 with None, None => True | Some _, Some _ => True | _, _ => False end).
  { intros v1 v2 H. destruct (er_cases _ _ H) as [->|(m & n1 & n2 & e & -> & ->)]; [destruct (fst v2)|]; exact I. }
  assert (Hg : forall v1 v2, er v1 = er v2 -> er (purge t v1) = er (purge t v2) /\ slot_cell (fst (purge t v1)) = slot_cell (fst (purge t v2))).
  { intros v1 v2 H. destruct (er_cases _ _ H) as [->|(m & n1 & n2 & [dl|] & -> & ->)]; cbn; auto. destruct (dl <? t); auto. }
  destruct (single_cases c) as [[k Hk]|Hc].
  - rewrite !(abs_single c k) by auto. pose proof (er_abs1 c t _ _ Hn (He k)) as H.
    destruct (abs1 c t (V1 k)) as [[a r]|], (abs1 c t (V2 k)) as [[b r']|]; auto. destruct H. auto.
  - destruct c; try destruct Hc; cbn [abs].
    + split; [reflexivity|]. clear Hn. revert V1 V2 He. induction kv as [|[k v] kv IH]; intros V1 V2 He; [exact He|]. cbn. apply IH. auto.
    + assert (G : forall kv n V1 V2, (forall k, er (V1 k) = er (V2 k)) ->
        snd (a_msetnx kv n V1) = snd (a_msetnx kv n V2) /\ forall k, er (fst (a_msetnx kv n V1) k) = er (fst (a_msetnx kv n V2) k)).
      { clear - Hu Hp Hf. induction kv as [|[k v] kv IH]; intros n V1 V2 He; [auto|]. cbn. specialize (Hf _ _ (He k)).
        destruct (fst (V1 k)), (fst (V2 k)); try destruct Hf; apply IH; auto. }
      specialize (G kv 0 V1 V2 He). destruct (a_msetnx kv 0 V1), (a_msetnx kv 0 V2). cbn [fst snd] in *. destruct G as [-> G]. auto.
    + assert (G : forall ks V1 V2, (forall k, er (V1 k) = er (V2 k)) ->
        snd (a_mget t ks V1) = snd (a_mget t ks V2) /\ forall k, er (fst (a_mget t ks V1) k) = er (fst (a_mget t ks V2) k)).
      { clear - Hu Hg. induction ks as [|k ks IH]; intros V1 V2 He; [auto|]. cbn. destruct (Hg _ _ (He k)) as [G1 G2].
        specialize (IH (upd V1 k (purge t (V1 k))) (upd V2 k (purge t (V2 k))) (Hu _ _ _ _ _ He G1)).
        destruct (a_mget t ks (upd V1 _ _)), (a_mget t ks (upd V2 _ _)). cbn [fst snd] in *. destruct IH as [-> IH]. rewrite G2. auto. }
      specialize (G ks V1 V2 He). destruct (a_mget t ks V1), (a_mget t ks V2). cbn [fst snd] in *. destruct G as [-> G]. auto.
    + auto.
    + split; [|auto]. do 2 f_equal. generalize 0. induction ks as [|k ks IH]; intros n; [reflexivity|]. cbn. specialize (Hf _ _ (He k)).
      destruct (fst (V1 k)), (fst (V2 k)); try destruct Hf; auto.
    + split; [reflexivity|]. intros k. unfold a_cron. destruct (er_cases _ _ (He k)) as [->|(m & n1 & n2 & e & -> & ->)]; [reflexivity|].
      cbn [fst snd]. destruct (zero_time <? t); reflexivity.
Qed.
Lemma er_replies h : forall w1 w2, ready w1 -> ready w2 -> (forall k, er (view w1 k) = er (view w2 k)) ->
  all_calls (fun _ c => not_hlen c) h -> replies h w1 = replies h w2.
Proof.
  unfold replies. induction h as [|[t c] h IH]; intros w1 w2 R1 R2 Hv Hall; [reflexivity|]. simpl.
  inversion_clear Hall as [|? ? H1 H2]. simpl in H1.
  pose proof (refine c t w1 R1) as Hx1. pose proof (refine c t w2 R2) as Hx2. pose proof (er_abs c t _ _ H1 Hv) as Hx.
  destruct (abs c t (view w1)) as [[V1 r1]|], (abs c t (view w2)) as [[V2 r2]|]; try destruct Hx.
  - destruct Hx1 as (a & -> & Ra & Va), Hx2 as (b & -> & Rb & Vb).
    assert (Hab : forall k, er (view a k) = er (view b k)) by (intros k; rewrite Va, Vb; auto).
    specialize (IH a b Ra Rb Hab H2). destruct (run_hist h a), (run_hist h b); congruence.
  - rewrite Hx1, Hx2. reflexivity.
Qed.
(** Full statement: [indist w1 w].  Proved: no call other than HLen can tell the difference. *)
Theorem C36_hexists_partial w t k f :
  ready w -> hash_or_absent w k -> ~ past w k t ->
  exists w1, run_call t (CHExists k f) w = Done w1 (RInt (if has_field t w k f then 1 else 0, None)) /\
    forall h, all_calls (fun _ c => not_hlen c) h -> replies h w1 = replies h w.
Proof.
  intros Hr Hh Hp. pose proof (proj1 (is_ch_iff w k Hr) Hh) as Hc. rewrite has_field_obj by auto using ch_purge.
  destruct (run_single_ex (CHExists k f) k t w _ _ Hr eq_refl eq_refl) as (w1 & E & Hr1 & Hv & Ho).
  rewrite purge_not_past in * by auto. exists w1. split.
  - rewrite E. unfold obj, is_ch, a_hread in *. destruct (fst (view w k)) as [[x|o]|]; [destruct Hc| |reflexivity].
    cbn [snd]. destruct (o_get o f); reflexivity.
  - intros h Hall. apply er_replies; auto. intros k'. destruct (decide (k' = k)) as [->|Hne]; [|rewrite Ho; auto].
    rewrite Hv. unfold a_hread, is_ch in *. destruct (view w k) as [[[x|o]|] e]; [destruct Hc| |reflexivity]. reflexivity.
Qed.
(** What HLen then answers: every HExists that finds its field makes the hash count one field less. *)
Theorem C36_hexists_hlen_partial w t k f w1 r t' n :
  ready w -> hash_or_absent w k -> ~ past w k t -> ~ past w k t' ->
  answer t' (CHLen k) w = ok_int n -> run_call t (CHExists k f) w = Done w1 r ->
  answer t' (CHLen k) w1 = ok_int (if has_field t w k f then wrap64 (n - 1) else wrap64 n).
Proof.
  intros Hr Hh Hp Hp' Hn E. pose proof (proj1 (is_ch_iff w k Hr) Hh) as Hc. rewrite has_field_obj by auto using ch_purge.
  destruct (run_single_ex (CHExists k f) k t w _ _ Hr eq_refl eq_refl) as (w2 & E2 & Hr1 & Hv & Ho).
  rewrite E2 in E. injection E as -> _. rewrite purge_not_past in * by auto.
  assert (Hp1 : ~ past w1 k t').
  { unfold past. rewrite <- view_dl, Hv by auto. unfold a_hread. destruct (view w k) as [[[x|o]|] e] eqn:Ev; cbn [fst snd]; intros Hx; apply Hp'; unfold past; rewrite <- view_dl, Ev by auto; exact Hx. }
  rewrite (answer_single _ k) in Hn |- * by auto. cbn [abs1 wr] in *. rewrite purge_not_past in * by auto. rewrite Hv. unfold a_hread, is_ch, obj in *.
  destruct (view w k) as [[[x|o]|] e]; cbn [fst snd] in *; [destruct Hc| |injection Hn as <-; reflexivity].
  injection Hn as <-. destruct (o_get o f); cbn [fst snd h_len]; [|rewrite Z.sub_0_r]; reflexivity.
Qed.
Example C36_nonvacuous : hash_or_absent demo (bs "h") /\ answer 9 (CHExists (bs "h") (bs "f")) demo = ok_int 1 /\ answer 9 (CHExists (bs "h") (bs "g")) demo = ok_int 0 /\
  replies [(9, CHLen (bs "h")); (9, CHExists (bs "h") (bs "f")); (9, CHExists (bs "h") (bs "f")); (9, CHLen (bs "h"))] demo = Some [RInt (1, None); RInt (1, None); RInt (1, None); RInt (-1, None)].
Proof. split; [right; vm_compute; eauto|]. vm_compute. auto. Qed.

(** ** C37 *)
Lemma o_del_get fs : forall o n f, o_get (fst (o_del o fs n)) f = if decide (f ∈ fs) then None else o_get o f.
Proof.
  induction fs as [|g r IH]; intros o n f; [reflexivity|]. cbn [o_del]. destruct (o_get o g) eqn:E; rewrite IH.
  - unfold o_get. cbn [h_map]. destruct (decide (f ∈ r)) as [H|H].
    + rewrite decide_True by (right; auto). reflexivity.
    + destruct (decide (f = g)) as [->|Hne].
      * rewrite decide_True by left. rewrite lookup_delete. reflexivity.
      * rewrite decide_False by (rewrite elem_of_cons; tauto). rewrite lookup_delete_ne by auto. reflexivity.
  - destruct (decide (f ∈ r)) as [H|H].
    + rewrite decide_True by (right; auto). reflexivity.
    + destruct (decide (f = g)) as [->|Hne].
      * rewrite decide_True by left. exact E.
      * rewrite decide_False by (rewrite elem_of_cons; tauto). reflexivity.
Qed.
Lemma o_del_count fs : forall o n (P : gostr -> bool), (forall f, P f = match o_get o f with Some _ => true | None => false end) ->
  snd (o_del o fs n) = n + zlen (List.filter P (remove_dups fs)).
Proof.
  induction fs as [|g r IH]; intros o n P HP; [cbn [o_del remove_dups List.filter snd]; rewrite zlen_nil; lia|]. cbn [o_del remove_dups].
  assert (Hsub : forall l Q, (forall f, In f l -> Q f = P f) -> List.filter Q l = List.filter P l).
  { induction l as [|x l IHl]; intros Q HQ; [reflexivity|]. cbn. rewrite (HQ x) by (left; auto). rewrite IHl by (intros; apply HQ; right; auto). reflexivity. }
  destruct (o_get o g) as [sg|] eqn:E.
  - set (o' := HObj (delete g (h_map o)) (h_len o)).
    rewrite (IH o' (n + 1) (fun f => match o_get o' f with Some _ => true | None => false end)) by reflexivity.
    assert (Ho' : forall f, o_get o' f = if decide (f = g) then None else o_get o f).
    { intros f. unfold o', o_get. cbn [h_map]. case_decide as Hf; [subst; rewrite lookup_delete|rewrite lookup_delete_ne by auto]; reflexivity. }
    destruct (decide_rel (∈) g r) as [Hin|Hin].
    + (* one occurrence of g in remove_dups r is filtered out on the left only *)
      assert (G : forall l, NoDup l -> g ∈ l -> zlen (List.filter P l) = 1 + zlen (List.filter (fun f => match o_get o' f with Some _ => true | None => false end) l)).
      { clear Hin. induction l as [|x l IHl]; intros Hnd Hin; [inversion Hin|]. apply list.NoDup_cons in Hnd as [Hx Hl]. cbn [List.filter].
        rewrite Ho'. destruct (decide (x = g)) as [->|Hne].
        - rewrite HP, E, zlen_cons. f_equal. f_equal. symmetry. apply Hsub. intros f Hf. rewrite Ho', HP.
          rewrite decide_False; [reflexivity|]. intros ->. apply Hx, elem_of_list_In, Hf.
        - rewrite HP. apply elem_of_cons in Hin as [Hin|Hin]; [congruence|].
          destruct (o_get o x); rewrite ?zlen_cons, (IHl Hl Hin); lia. }
      rewrite (G (remove_dups r)); [lia|apply NoDup_remove_dups|apply elem_of_remove_dups; exact Hin].
    + cbn [List.filter]. rewrite HP, E, zlen_cons. rewrite (Hsub (remove_dups r)); [lia|].
      intros f Hf. rewrite Ho', HP, decide_False; [reflexivity|]. intros ->. apply Hin, elem_of_remove_dups, elem_of_list_In, Hf.
  - rewrite (IH o n P HP). destruct (decide_rel (∈) g r); [reflexivity|]. cbn [List.filter]. rewrite HP, E. reflexivity.
Qed.
Theorem C37_hdel w t k fs :
  ready w -> hash_or_absent w k -> ~ past w k t ->
  exists w1, run_call t (CHDel k fs) w = Done w1 (RInt (zlen (List.filter (has_field t w k) (remove_dups fs)), None)) /\
    forall t' f, ~ past w k t' ->
      answer t' (CHGet k f) w1 = if decide (f ∈ fs) then err_str ErrKeyNil else answer t' (CHGet k f) w.
Proof.
  intros Hr Hh Hp. pose proof (proj1 (is_ch_iff w k Hr) Hh) as Hc.
  destruct (run_single_ex (CHDel k fs) k t w _ _ Hr eq_refl eq_refl) as (w1 & E & Hr1 & Hv & Ho).
  assert (Hcount : forall o n, obj (view w k) = o -> snd (o_del o fs n) = n + zlen (List.filter (has_field t w k) (remove_dups fs))).
  { intros o n Ho'. apply o_del_count. intros f. rewrite has_field_obj by auto using ch_purge. rewrite purge_not_past by auto. rewrite Ho'. reflexivity. }
  rewrite purge_not_past in * by auto. exists w1.
  assert (Hd : deadline w1 k = deadline w k).
  { rewrite <- !view_dl, Hv by auto. unfold a_hread. destruct (view w k) as [[[x|o]|] e]; [destruct Hc| |reflexivity]. cbn [fst snd].
    destruct (o_del o fs 0) as [o' n]. reflexivity. }
  assert (Hcw : is_ch (view w1 k)).
  { rewrite Hv. unfold a_hread, is_ch in *. destruct (view w k) as [[[x|o]|] e]; [destruct Hc| |exact I]. cbn [fst snd]. destruct (o_del o fs 0). exact I. }
  split.
  - rewrite E. unfold a_hread, obj, is_ch in *. destruct (fst (view w k)) as [[x|o]|]; [destruct Hc| |].
    + cbn [fst snd]. specialize (Hcount o 0 eq_refl). destruct (o_del o fs 0) as [o' n]. cbn [snd] in *. subst n. reflexivity.
    + specialize (Hcount empty_hobj 0 eq_refl). cbn [snd].
      assert (Hz : forall fs n, snd (o_del empty_hobj fs n) = n) .
      { clear. induction fs as [|g r IH]; intros n; [reflexivity|]. cbn [o_del]. rewrite empty_get. apply IH. }
      rewrite Hz, Z.add_0_l in Hcount. rewrite <- Hcount. reflexivity.
  - intros t' f Hp'. rewrite !hget_obj by auto using ch_purge.
    rewrite (purge_not_past w1) by (auto; rewrite (past_eq w1 w) by exact Hd; exact Hp'). rewrite purge_not_past by auto.
    rewrite Hv. unfold a_hread, obj, is_ch in *. destruct (view w k) as [[[x|o]|] e]; [destruct Hc| |].
    + cbn [fst snd]. pose proof (o_del_get fs o 0 f) as Hg. destruct (o_del o fs 0) as [o' n]. cbn [fst snd] in *.
      assert (Hx : o_get (if n =? 0 then o' else HObj (h_map o') (wrap64 (h_len o' - n))) f = o_get o' f) by (destruct (n =? 0); reflexivity).
      rewrite Hx, Hg. case_decide; reflexivity.
    + cbn [fst snd]. case_decide; reflexivity.
Qed.
Example C37_nonvacuous : replies [(9, CHSet (bs "h") (bs "g") (bs "1")); (9, CHDel (bs "h") [bs "g"; bs "x"; bs "g"]); (9, CHMGet (bs "h") [bs "f"; bs "g"])] demo =
  Some [RInt (1, None); RInt (1, None); RSlots ([SlotStr (bs "v"); SlotErr ErrKeyNil], None)].
Proof. vm_compute. reflexivity. Qed.

(** ** C38 *)
Theorem C38_empty_hash_stays_refuted :
  exists k f v, replies [(1, CHSet k f v); (2, CHDel k [f]); (3, CExists [k]); (3, CType k); (3, CGet k)] (new_world 0) =
    Some [RInt (1, None); RInt (1, None); RInt (1, None); RStr (bs "string", None); RStr ([], Some ErrWrongType)].
Proof. exists (bs "k"), (bs "f"), (bs "v"). vm_compute. reflexivity. Qed.
(** Full statement: the key is absent for every call.  Proved: no field can be read any more. *)
Theorem C38_empty_hash_partial w t k fs :
  ready w -> hash_or_absent w k -> ~ past w k t -> (forall f, has_field t w k f = true -> f ∈ fs) ->
  exists w1 r, run_call t (CHDel k fs) w = Done w1 r /\ forall t' f, ~ past w k t' -> answer t' (CHGet k f) w1 = err_str ErrKeyNil.
Proof.
  intros Hr Hh Hp Hall. destruct (C37_hdel w t k fs Hr Hh Hp) as (w1 & E & H). exists w1. eexists. split; [exact E|].
  intros t' f Hp'. rewrite H by auto. case_decide as Hf; [reflexivity|]. rewrite (hget_before w t t') by auto.
  specialize (Hall f). rewrite has_field_obj in Hall by (auto using ch_purge; apply ch_purge, is_ch_iff; auto).
  destruct (o_get _ f); [destruct Hf; auto|reflexivity].
Qed.
