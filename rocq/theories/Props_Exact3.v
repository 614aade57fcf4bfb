(** * Props_Exact3: exact results of HLen, of the enumerations of a hash and of GetSet on a hash, in every state *)
From Verif Require Import Base GoFloat CacheModel CacheSpec.
From Verif Require Import CacheAbs CacheRefine CacheRefineH CacheMain CacheLib Props_String Props_Db Props_Hash Props_Hash2 Props_Exact.

(** ** C35: by how much HLen is wrong *)
Definition is_hash (w : world) (k : gostr) : bool := match stored w k with Some (VHash _) => true | _ => false end.
Definition is_past (w : world) (k : gostr) (t : Z) : bool := match deadline w k with Some dl => dl <? t | None => false end.
(** 1 for a call of HExists on [k] that found the field *)
Definition hit (k : gostr) (c : call) (r : reply) : Z :=
  match c, r with CHExists k' _, RInt (1, _) => if bool_decide (k' = k) then 1 else 0 | _, _ => 0 end.
(** The calls of HExists that found their field since the hash in [k] was made. The hash is a new one if there was
    none before, or the old one had expired before the call and not after it (the sweep, which forgets deadlines, makes no hashes). *)
Definition is_cron (c : call) : bool := match c with CCron => true | _ => false end.
Fixpoint drift (k : gostr) (d : Z) (h : list (Z * call)) (w : world) : Z :=
  match h with
  | [] => d
  | (t, c) :: h => match run_call t c w with
                   | Done w1 r => drift k (if is_hash w k && (is_cron c || implb (is_past w k t) (is_past w1 k t)) then d + hit k c r else 0) h w1
                   | _ => d
                   end
  end.

Definition off (d : Z) (o : hobj) : Prop := h_len o = wrap64 (Z.of_nat (size (h_map o)) - d).
Definition offs (d : Z) (v : kview) : Prop := match fst v with Some (CH o) => off d o | _ => True end.
Definition chv (v : kview) : bool := match fst v with Some (CH _) => true | _ => false end.
Definition pastv (t : Z) (v : kview) : bool := match snd v with Some dl => dl <? t | None => false end.
Definition next (t d n : Z) (v v' : kview) : Z := if chv v && implb (pastv t v) (pastv t v') then d + n else 0.
Lemma off_set d o f s : off d o -> off d (o_set o f s).
Proof.
  unfold off, o_set, o_isnew. cbn [h_len h_map]. intros ->. rewrite wrap64_add_l. f_equal. destruct (h_map o !! f) eqn:E.
  - rewrite map_size_insert_Some by eauto. lia.
  - rewrite map_size_insert_None by auto. lia.
Qed.
Lemma off_mset d fv : forall o n, off d o -> off d (fst (o_mset o fv n)).
Proof. induction fv as [|[f v] r IH]; intros o n Ho; [exact Ho|]. cbn. apply IH, off_set, Ho. Qed.
Lemma off_empty : off 0 empty_hobj. Proof. reflexivity. Qed.
Lemma next_same t d v : offs d v -> offs (next t d 0 v v) v.
Proof. unfold next, offs, chv. destruct (fst v) as [[x|o]|]; auto. destruct (pastv t v); cbn; rewrite Z.add_0_r; auto. Qed.
Lemma next_purge t d v : offs d v -> offs (next t d 0 v (purge t v)) (purge t v).
Proof. intros H. destruct v as [[c|] [dl|]]; try (apply next_same; exact H). cbn [purge]. destruct (dl <? t) eqn:E; [exact I|]. apply next_same, H. Qed.
Lemma next_cv t d n v x e : offs (next t d n v (Some (CV x), e)) (Some (CV x), e). Proof. exact I. Qed.
Lemma next_hwrite {A} (z : A) t d g v : (forall d o, off d o -> off d (fst (g o))) -> offs d v -> offs (next t d 0 v (fst (a_hwrite z g (purge t v)))) (fst (a_hwrite z g (purge t v))).
Proof.
  intros Hg H. unfold a_hwrite.
  assert (Hw : forall o e, v = (Some (CH o), e) -> pastv t v = false -> offs (next t d 0 v (fst (let '(o', r) := g o in ((Some (CH o'), e), r)))) (fst (let '(o', r) := g o in ((Some (CH o'), e), r)))).
  { intros o e -> Hp. specialize (Hg d o H). destruct (g o) as [o' r]. cbn [fst] in *. unfold next. rewrite Hp. cbn. rewrite Z.add_0_r. exact Hg. }
  assert (Hn : forall e, chv v = false \/ (pastv t v = true /\ e = None) -> offs (next t d 0 v (fst (let '(o', r) := g empty_hobj in ((Some (CH o'), e), r)))) (fst (let '(o', r) := g empty_hobj in ((Some (CH o'), e), r)))).
  { intros e He. pose proof (Hg 0 _ off_empty) as H0. destruct (g empty_hobj) as [o' r]. cbn [fst] in *. unfold next. destruct He as [->|[-> ->]]; cbn; [exact H0|]. rewrite andb_false_r. exact H0. }
  destruct v as [[[x|o]|] [dl|]]; cbn [purge fst snd] in *; try (destruct (dl <? t) eqn:E; cbn [fst snd]); try exact I; try (apply Hn; cbn; rewrite ?E; auto; fail); apply Hw; auto.
Qed.
Lemma next_hread {A} (z : A) a t d n g v : (forall o, off d o -> off (d + n) (fst (g o))) -> offs d v -> offs (next t d n v (fst (a_hread z a g (purge t v)))) (fst (a_hread z a g (purge t v))).
Proof.
  intros Hg H. unfold a_hread.
  assert (Hw : forall o e, v = (Some (CH o), e) -> pastv t v = false -> offs (next t d n v (fst (let '(o', r) := g o in ((Some (CH o'), e), r)))) (fst (let '(o', r) := g o in ((Some (CH o'), e), r)))).
  { intros o e -> Hp. specialize (Hg o H). destruct (g o) as [o' r]. cbn [fst] in *. unfold next. rewrite Hp. exact Hg. }
  destruct v as [[[x|o]|] [dl|]]; cbn [purge fst snd] in *; try (destruct (dl <? t) eqn:E; cbn [fst snd]); try exact I; apply Hw; auto.
Qed.
Lemma next_abs1 c t d k v v' r : single c = Some k -> offs d v -> abs1 c t v = Some (v', r) -> offs (next t d (hit k c r) v v') v'.
Proof.
  intros Hk Hv Ha. destruct c; cbn [single keys_of] in Hk; try discriminate; injection Hk as ->; cbn [abs1] in Ha; unfold wr in Ha;
    try (injection Ha as <- <-; cbn [hit]; first [exact I | exact (next_purge t d v Hv) | exact (next_same t d v Hv)]; fail).
  - destruct (fst v); injection Ha as <- <-; [exact (next_same t d v Hv)|exact I].
  - destruct (fst (purge t v)) as [x|]; [destruct (fmt_cell x)|]; injection Ha as <- <-; try exact I. exact (next_purge t d v Hv).
  - destruct (pos <? 0); [injection Ha as <- <-; exact (next_same t d v Hv)|].
    destruct (fst (purge t v)) as [x|]; [destruct (fmt_cell x)|destruct (pos >? max_alloc); [discriminate|]]; injection Ha as <- <-; try exact I. exact (next_purge t d v Hv).
  - injection Ha as <- <-. cbn [hit]. unfold a_incr. destruct (fst v) as [[x|o]|]; [destruct (incr_val x 1) as [[y n]|]| |]; try exact I; exact (next_same t d v Hv).
  - injection Ha as <- <-. cbn [hit]. unfold a_incr. destruct (fst v) as [[x|o]|]; [destruct (incr_val x d0) as [[y n]|]| |]; try exact I; exact (next_same t d v Hv).
  - destruct (fst v) as [[x|o]|] eqn:E; [destruct x| |]; injection Ha as <- <-; try exact I; exact (next_same t d v Hv).
  - injection Ha as <- <-. cbn [hit]. unfold a_incr. destruct (fst v) as [[x|o]|]; [destruct (incr_val x (-1)) as [[y n]|]| |]; try exact I; exact (next_same t d v Hv).
  - injection Ha as <- <-. cbn [hit]. unfold a_incr. destruct (fst v) as [[x|o]|]; [destruct (incr_val x (wrap64 (- d0))) as [[y n]|]| |]; try exact I; exact (next_same t d v Hv).
  - injection Ha as <- <-. apply next_hwrite; [|exact Hv]. intros d' o Ho. apply off_set, Ho.
  - injection Ha as <- <-. apply next_hwrite; [|exact Hv]. intros d' o Ho. destruct (h_map o !! f) eqn:E; [exact Ho|].
    unfold off in *. cbn [fst h_map h_len]. rewrite Ho, wrap64_add_l. f_equal. rewrite map_size_insert_None by auto. lia.
  - injection Ha as <- <-. cbn [hit]. rewrite bool_decide_true by reflexivity. 
    destruct (fst (purge t v)) as [[x|o]|] eqn:E.
    + unfold a_hread. rewrite E. cbn [fst snd]. exact (next_purge t d v Hv).
    + set (n := match o_get o f with Some _ => 1 | None => 0 end).
      assert (Hn : match n with 1 => 1 | _ => 0 end = n) by (subst n; destruct (o_get o f); reflexivity).
      assert (Hf : forall o', off d o' -> o' = o -> off (d + n) (HObj (h_map o') (wrap64 (h_len o' - match o_get o' f with Some _ => 1 | None => 0 end)))).
      { intros o' Ho ->. fold n. unfold off in *. cbn [h_len h_map]. rewrite Ho. unfold Z.sub at 1. rewrite wrap64_add_l. f_equal. lia. }
      unfold a_hread. rewrite E. cbn [fst snd]. 
      assert (Hp : purge t v = v /\ pastv t v = false).
      { destruct v as [[c|] [dl|]]; cbn [purge pastv snd] in *; auto; destruct (dl <? t); auto; discriminate. }
      destruct Hp as [Hp1 Hp2]. rewrite Hp1 in *. unfold next, chv. rewrite E, Hp2. cbn [andb implb offs fst]. fold n. rewrite Hn. apply Hf; [|reflexivity]. unfold offs in Hv. rewrite E in Hv. exact Hv.
    + unfold a_hread. rewrite E. cbn [fst snd]. exact (next_purge t d v Hv).
  - injection Ha as <- <-. apply next_hread; [|exact Hv]. intros o Ho. pose proof (o_del_size fs o 0) as [H1 H2]. rewrite Z.add_0_r.
    destruct (o_del o fs 0) as [o' n]. cbn [fst snd] in *. destruct (Z.eqb_spec n 0) as [->|]; unfold off in *.
    + rewrite H2, Ho. f_equal. lia.
    + cbn [h_len h_map]. rewrite H2, Ho. unfold Z.sub at 1. rewrite wrap64_add_l. f_equal. lia.
  - injection Ha as <- <-. apply next_hread; [|exact Hv]. intros o Ho. rewrite Z.add_0_r. exact Ho.
  - injection Ha as <- <-. apply next_hread; [|exact Hv]. intros o Ho. rewrite Z.add_0_r. exact Ho.
  - injection Ha as <- <-. apply next_hwrite; [|exact Hv]. intros d' o Ho. unfold g_hincr.
    destruct (h_map o !! f) as [x|]; [destruct (hincr_val x d0)|]; cbn [fst]; auto using off_set.
  - injection Ha as <- <-. apply next_hwrite; [|exact Hv]. intros d' o Ho. unfold g_hincr.
    destruct (h_map o !! f) as [x|]; [destruct (hincrf_val x d0)|]; cbn [fst]; auto using off_set.
  - injection Ha as <- <-. apply next_hwrite; [|exact Hv]. intros d' o Ho. pose proof (off_mset d' fv o 0 Ho) as H.
    destruct (o_mset o fv 0) as [o' n]. exact H.
  - injection Ha as <- <-. apply next_hread; [|exact Hv]. intros o Ho. rewrite Z.add_0_r. exact Ho.
  - destruct (fst (purge t v)) as [[x|o]|] eqn:E; try discriminate; injection Ha as <- <-; exact (next_purge t d v Hv).
  - destruct (fst (purge t v)) as [[x|o]|] eqn:E; try discriminate; injection Ha as <- <-; exact (next_purge t d v Hv).
  - destruct (fst (purge t v)) as [[x|o]|] eqn:E; try discriminate; injection Ha as <- <-; exact (next_purge t d v Hv).
  - injection Ha as <- <-. apply next_hread; [|exact Hv]. intros o Ho. rewrite Z.add_0_r. exact Ho.
Qed.
Lemma hit_ne k k' c r : single c = Some k' -> k <> k' -> hit k c r = 0.
Proof. intros Hk Hne. destruct c; try reflexivity. cbn in Hk. injection Hk as ->. unfold hit. destruct r as [|[n e]| | | | |]; try reflexivity. rewrite bool_decide_false by congruence. destruct n as [|[]|]; reflexivity. Qed.
(** a step between views: nothing, purged, or a string *)
Definition tame (t : Z) (v v' : kview) : Prop := v' = v \/ v' = purge t v \/ match fst v' with Some (CH _) => False | _ => True end.
Lemma next_tame t d v v' : tame t v v' -> offs d v -> offs (next t d 0 v v') v'.
Proof. intros [->|[->|H]] Hv; [apply next_same, Hv|apply next_purge, Hv|]. unfold offs. destruct (fst v') as [[x|o]|]; auto. destruct H. Qed.
Lemma tame_refl t v : tame t v v. Proof. left. reflexivity. Qed.
Lemma next_abs c t d V V' r k : offs d (V k) -> abs c t V = Some (V', r) ->
  offs (if chv (V k) && (is_cron c || implb (pastv t (V k)) (pastv t (V' k))) then d + hit k c r else 0) (V' k).
Proof.
  intros HV Ha. destruct (is_cron c) eqn:Ecron.
  { destruct c; try discriminate. cbn [abs] in Ha. injection Ha as <- <-. cbn [hit orb]. rewrite andb_true_r, Z.add_0_r. unfold a_cron, chv, offs in *.
    destruct (V k) as [[[x|o]|] e]; cbn [fst] in *; try destruct (zero_time <? t); cbn [fst]; auto. }
  cbn [orb]. fold (next t d (hit k c r) (V k) (V' k)). destruct (single_cases c) as [[k' Hk]|Hc].
  - rewrite (abs_single c k' t _ Hk) in Ha. destruct (abs1 c t (V k')) as [[x r0]|] eqn:E; [|discriminate].
    injection Ha as <- <-. unfold upd. destruct (decide (k = k')) as [->|Hne]; [exact (next_abs1 _ _ _ _ _ _ _ Hk HV E)|]. rewrite (hit_ne k k' c r0 Hk Hne). apply next_same, HV.
  - destruct c; try destruct Hc; cbn [abs] in Ha.
    + injection Ha as <- <-. cbn [hit]. apply next_tame; [|exact HV]. 
      assert (G : forall kv V, a_mset kv V k = V k \/ match fst (a_mset kv V k) with Some (CH _) => False | _ => True end).
      { clear. induction kv as [|[k' v] kv IH]; intros V; [auto|]. cbn. destruct (IH (upd V k' (put v (V k')))) as [->|H]; auto. unfold upd. destruct (decide (k = k')); [right; exact I|auto]. }
      destruct (G kv V) as [->|H]; [apply tame_refl|right; right; exact H].
    + assert (G : forall kv n V, fst (a_msetnx kv n V) k = V k \/ match fst (fst (a_msetnx kv n V) k) with Some (CH _) => False | _ => True end).
      { clear. induction kv as [|[k' v] kv IH]; intros n V; [auto|]. cbn. destruct (fst (V k')); [apply IH|]. destruct (IH (n + 1) (upd V k' (put v (V k')))) as [->|H]; auto. unfold upd. destruct (decide (k = k')); [right; exact I|auto]. }
      specialize (G kv 0 V). destruct (a_msetnx kv 0 V). injection Ha as <- <-. cbn [hit fst] in *. apply next_tame; [|exact HV]. destruct G as [->|H]; [apply tame_refl|right; right; exact H].
    + assert (Pi : forall v, purge t (purge t v) = purge t v).
      { intros [[c|] [dl|]]; cbn; auto. destruct (dl <? t) eqn:E; cbn; rewrite ?E; auto. }
      assert (G : forall ks V, fst (a_mget t ks V) k = V k \/ fst (a_mget t ks V) k = purge t (V k)).
      { clear - Pi. induction ks as [|k' ks IH]; intros V; [auto|]. cbn. specialize (IH (upd V k' (purge t (V k')))). 
        destruct (a_mget t ks _) as [U n]. cbn [fst] in *. unfold upd in IH. destruct (decide (k = k')) as [->|]; [|exact IH]. rewrite Pi in IH. destruct IH as [->| ->]; auto. }
      specialize (G ks V). destruct (a_mget t ks V). injection Ha as <- <-. cbn [hit fst] in *. apply next_tame; [|exact HV]. destruct G as [->| ->]; [apply tame_refl|right; left; reflexivity].
    + injection Ha as <- <-. exact I.
    + injection Ha as <- <-. cbn [hit]. apply next_same, HV.
    + discriminate Ecron.
Qed.
Lemma chv_is w k : ready w -> is_hash w k = chv (view w k).
Proof. intros Hr. pose proof (stored_view w k Hr) as H. unfold is_hash, chv. destruct (stored w k) as [[]|]; try (rewrite H; reflexivity). destruct H as (o & -> & _). reflexivity. Qed.
Lemma pastv_is w k t : ready w -> is_past w k t = pastv t (view w k).
Proof. intros Hr. pose proof (view_dl w k Hr) as H. unfold is_past, pastv. rewrite <- H. reflexivity. Qed.
Lemma drift_hist k h : forall w d w' rs, ready w -> offs d (view w k) -> run_hist h w = Done w' rs -> offs (drift k d h w) (view w' k).
Proof.
  induction h as [|[t c] h IH]; intros w d w' rs Hr Hg; cbn [run_hist drift]; [intros E; injection E as <- <-; auto|].
  destruct (run_call t c w) as [w1 x| |] eqn:E1; [|discriminate|discriminate].
  destruct (run_hist h w1) as [w2 xs| |] eqn:E2; [|discriminate|discriminate].
  intros E; injection E as <- <-. destruct (run_inv _ _ _ _ _ Hr E1) as (V' & Ha & Hr1 & Hv).
  eapply IH; [exact Hr1| |exact E2]. rewrite chv_is, !pastv_is by assumption. rewrite Hv. apply (next_abs c t d _ _ _ k Hg Ha).
Qed.
(** In every state that any calls lead to, HLen of a hash is the number of its fields less the number of calls of HExists that found
    their field since the hash was made (wrapped to 64 bits): it is right exactly if there were none (or a multiple of 2^64). *)
Theorem C35_hlen_exact t0 h w rs t k l : run_hist h (new_world t0) = Done w rs -> stored w k = Some (VHash l) -> ~ past w k t ->
  exists fs, NoDup fs /\ (forall f, f ∈ fs <-> has_field t w k f = true) /\
             answer t (CHLen k) w = ok_int (wrap64 (zlen fs - drift k 0 h (new_world t0))).
Proof.
  intros E Hs Hp. pose proof (ready_hist _ _ _ _ (ready_new t0) E) as Hr.
  assert (HL : offs (drift k 0 h (new_world t0)) (view w k)) by (eapply drift_hist; [apply ready_new| |exact E]; exact I).
  destruct (view_hash w k l Hr Hs) as (o & Ho & _). assert (Hc : is_ch (purge t (view w k))) by (rewrite purge_not_past by auto; unfold is_ch; rewrite Ho; exact I).
  exists (map fst (map_to_list (h_map o))). split; [apply NoDup_fst_map_to_list|]. split.
  - intros f. rewrite has_field_obj, o_get_is by auto. rewrite purge_not_past by auto. unfold obj. rewrite Ho. split.
    + intros Hin. apply elem_of_list_fmap in Hin as ([f' x] & -> & Hin). apply elem_of_map_to_list in Hin. cbn [fst]. rewrite Hin. reflexivity.
    + destruct (h_map o !! f) as [x|] eqn:Ex; [|discriminate]. intros _. apply elem_of_list_fmap. exists (f, x). split; [reflexivity|]. apply elem_of_map_to_list, Ex.
  - rewrite (answer_single _ k) by auto. cbn [abs1]. rewrite purge_not_past by auto. unfold zlen. rewrite map_length. unfold wr, a_hread, offs in *. rewrite Ho in *. cbn [snd fst]. rewrite HL. reflexivity.
Qed.
Example C35_exact_ex :
  let h := [(1, CHSet (bs "k") (bs "f") (bs "v")); (2, CHExists (bs "k") (bs "f")); (3, CDel (bs "k")); (4, CHSet (bs "k") (bs "f") (bs "v")); (5, CHExists (bs "k") (bs "f")); (5, CHExists (bs "k") (bs "f")); (5, CHExists (bs "k") (bs "g"))] in
  drift (bs "k") 0 h (new_world 0) = 2 /\ replies (h ++ [(9, CHLen (bs "k"))]) (new_world 0) = Some [RInt (1, None); RInt (1, None); RInt (1, None); RInt (1, None); RInt (1, None); RInt (1, None); RInt (0, None); RInt (-1, None)].
Proof. vm_compute. auto. Qed.

(** ** C42, C44: the enumerations of a hash, in every state *)
(** a key read by Get as a value of a wrong type is a hash *)
Definition holds_hash (t : Z) (w : world) (k : gostr) : bool := match answer t (CGet k) w with Some (RStr (_, Some ErrWrongType)) => true | _ => false end.
Definition holds_string (t : Z) (w : world) (k : gostr) : bool := match answer t (CGet k) w with Some (RStr (_, None)) => true | _ => false end.
(** What HKeys, HVals and HGetAll do, in every state: they panic exactly on keys that hold nothing; on strings they report the wrong type; on a
    hash HKeys lists the fields, HGetAll returns a nil map. Other than dropping an expired key they change nothing. *)
Lemma enum_cases w t k c : ready w -> single c = Some k -> (c = CHKeys k \/ c = CHVals k \/ c = CHGetAll k) ->
  (readable t w k = false /\ run_call t c w = EPanic) \/
  (readable t w k = true /\ purge t (view w k) = view w k /\ exists w1 r, run_call t c w = Done w1 r /\ indist w1 w /\ abs1 c t (view w k) = Some (view w k, r)).
Proof.
  intros Hr Hk Hc. rewrite readable_view by auto. destruct (fst (purge t (view w k))) as [x|] eqn:E.
  - right. split; [reflexivity|]. assert (Hp : purge t (view w k) = view w k). { destruct (view w k) as [[y|] [dl|]]; cbn in *; auto. destruct (dl <? t); [discriminate|auto]. }
    split; [exact Hp|]. assert (Ha : exists r, abs1 c t (view w k) = Some (view w k, r)) by (destruct Hc as [-> |[-> | ->]]; cbn [abs1]; rewrite Hp in *; rewrite E; destruct x; eauto).
    destruct Ha as (r & Ha). pose proof (refine c t w Hr) as Hf. rewrite (abs_single c k t _ Hk), Ha in Hf. destruct Hf as (w1 & E1 & Hr1 & Hv). exists w1, r. split; [exact E1|]. split; [|exact Ha].
    apply indist_of_view; auto. intros k'. rewrite Hv. unfold upd. destruct (decide (k' = k)) as [->|]; reflexivity.
  - left. split; [reflexivity|]. apply run_panic; [auto|]. rewrite (abs_single c k t _ Hk). destruct Hc as [-> |[-> | ->]]; cbn [abs1]; rewrite E; reflexivity.
Qed.
Lemma holds_views w t k : ready w -> purge t (view w k) = view w k ->
  (holds_hash t w k = true <-> exists o, fst (view w k) = Some (CH o)) /\ (holds_string t w k = true <-> exists x, fst (view w k) = Some (CV x)).
Proof.
  intros Hr Hp. pose proof (stored_view w k Hr) as Hs. unfold holds_hash, holds_string. rewrite (answer_single _ k) by auto. cbn [abs1]. rewrite Hp. unfold fmt_cret.
  destruct (stored w k) as [[]|]; try (destruct Hs as (o & -> & _)); try rewrite Hs; cbn; (split; split; [intros H; try discriminate; eauto|intros (? & H); try discriminate; reflexivity|intros H; try discriminate; eauto|intros (? & H); try discriminate; reflexivity]).
Qed.
Theorem C42_hkeys_exact w t k : ready w ->
  match run_call t (CHKeys k) w with
  | EPanic => readable t w k = false
  | Done w1 r => indist w1 w /\ match r with
      | RList (fs, None) => holds_hash t w k = true /\ NoDup fs /\ forall f, f ∈ fs <-> has_field t w k f = true
      | _ => r = RList ([], Some ErrWrongType) /\ holds_string t w k = true
      end
  | EBlocked => False
  end.
Proof.
  intros Hr. destruct (enum_cases w t k (CHKeys k) Hr eq_refl (or_introl eq_refl)) as [[H ->]|(H & Hp & w1 & r & -> & Hi & Ha)]; [exact H|]. split; [exact Hi|].
  destruct (holds_views w t k Hr Hp) as [[_ H1] [_ H2]]. cbn [abs1] in Ha. rewrite Hp in Ha. destruct (fst (view w k)) as [[x|o]|] eqn:E; try discriminate; injection Ha as <-.
  - split; [reflexivity|eauto].
  - split; [eauto|]. split; [apply NoDup_fst_map_to_list|]. intros f.
    assert (Hc : is_ch (purge t (view w k))) by (rewrite Hp; unfold is_ch; rewrite E; exact I).
    rewrite has_field_obj, o_get_is by auto. rewrite Hp. unfold obj. rewrite E. split.
    + intros Hin. apply elem_of_list_fmap in Hin as ([f' x] & -> & Hin). apply elem_of_map_to_list in Hin. cbn [fst]. rewrite Hin. reflexivity.
    + destruct (h_map o !! f) as [x|] eqn:Ex; [|discriminate]. intros _. apply elem_of_list_fmap. exists (f, x). split; [reflexivity|]. apply elem_of_map_to_list, Ex.
Qed.
Theorem C44_hgetall_exact w t k : ready w ->
  match run_call t (CHGetAll k) w with
  | EPanic => readable t w k = false
  | Done w1 r => indist w1 w /\ ((r = RMap (None, None) /\ holds_hash t w k = true) \/ (r = RMap (None, Some ErrWrongType) /\ holds_string t w k = true))
  | EBlocked => False
  end.
Proof.
  intros Hr. destruct (enum_cases w t k (CHGetAll k) Hr eq_refl ltac:(auto)) as [[H ->]|(H & Hp & w1 & r & -> & Hi & Ha)]; [exact H|]. split; [exact Hi|].
  destruct (holds_views w t k Hr Hp) as [[_ H1] [_ H2]]. cbn [abs1] in Ha. rewrite Hp in Ha. destruct (fst (view w k)) as [[x|o]|] eqn:E; try discriminate; injection Ha as <-; eauto.
Qed.
Theorem C43_hvals_exact w t k : ready w ->
  match run_call t (CHVals k) w with
  | EPanic => readable t w k = false
  | Done w1 r => indist w1 w /\ match r with
      | RList (vs, None) => holds_hash t w k = true /\ exists fs, NoDup fs /\ (forall f, f ∈ fs <-> exists s, field w k f = Some (VStr s)) /\ map ok_str vs = map (fun f => answer t (CHGet k f) w) fs
      | _ => r = RList ([], Some ErrWrongType) /\ holds_string t w k = true
      end
  | EBlocked => False
  end.
Proof.
  intros Hr. destruct (enum_cases w t k (CHVals k) Hr eq_refl ltac:(auto)) as [[H ->]|(H & Hp & w1 & r & E1 & Hi & Ha)]; [exact H|]. rewrite E1. split; [exact Hi|].
  destruct (holds_views w t k Hr Hp) as [[_ H1] [_ H2]]. cbn [abs1] in Ha. rewrite Hp in Ha. destruct (fst (view w k)) as [[x|o]|] eqn:E; try discriminate; injection Ha as <-.
  - split; [reflexivity|eauto].
  - split; [eauto|]. assert (Hs : exists l, stored w k = Some (VHash l)) by (pose proof (stored_view w k Hr) as Hs; destruct (stored w k) as [[]|]; try congruence; eauto). destruct Hs as (l & Hs).
    assert (Hn : ~ past w k t). { intros Hq. pose proof (purge_past w k t Hr Hq) as Hx. rewrite Hp in Hx. congruence. }
    destruct (C43_hvals_partial w t k l Hr Hs Hn) as (fs & vs & G1 & G2 & G3 & G4). unfold answer in G1. rewrite E1 in G1. injection G1 as G1. rewrite G1. exists fs. auto.
Qed.
Example C42_exact_ex : readable 9 demo (bs "h") = true /\ holds_hash 9 demo (bs "h") = true /\ readable 9 demo (bs "zz") = false.
Proof. vm_compute. auto. Qed.

(** ** C31: GetSet on a hash always destroys it *)
Theorem C31_getset_exact w t k v : ready w -> holds_hash t w k = true ->
  exists w1, run_call t (CGetSet k v) w = Done w1 (RStr ([], Some ErrWrongType)) /\ answer t (CGet k) w1 = ok_str (text v) /\ ~ indist w1 w.
Proof.
  intros Hr Hh. pose proof (refine (CGetSet k v) t w Hr) as Hf. rewrite (abs_single (CGetSet k v) k t _ eq_refl) in Hf. cbn [abs1] in Hf.
  assert (Hp : purge t (view w k) = view w k).
  { unfold holds_hash in Hh. rewrite (answer_single _ k) in Hh by auto. cbn [abs1] in Hh. destruct (view w k) as [[y|] [dl|]]; cbn in *; auto. destruct (dl <? t); [discriminate|auto]. }
  rewrite Hp in Hf. destruct (proj1 (proj1 (holds_views w t k Hr Hp)) Hh) as (o & Ho). rewrite Ho in Hf. cbn [fmt_cret fmt_cell] in Hf. destruct Hf as (w1 & E1 & Hr1 & Hv). exists w1. split; [exact E1|].
  assert (Ha : answer t (CGet k) w1 = ok_str (text v)).
  { rewrite (answer_single _ k) by auto. cbn [abs1]. rewrite Hv. unfold upd. rewrite decide_True by reflexivity. unfold put.
    assert (Hq : purge t (Some (CV (try_int64 v)), snd (view w k)) = (Some (CV (try_int64 v)), snd (view w k))).
    { destruct (view w k) as [[y|] [dl|]]; cbn in *; auto; try discriminate. destruct (dl <? t); [discriminate|auto]. }
    rewrite Hq. cbn [fst]. unfold fmt_cret, fmt_cell. rewrite fmt_try. reflexivity. }
  split; [exact Ha|]. intros Hi. specialize (Hi [(t, CGet k)]). unfold replies in Hi. cbn [run_hist] in Hi. unfold holds_hash in Hh. unfold answer in Ha, Hh.
  destruct (run_call t (CGet k) w1) as [? r1| |]; try discriminate. injection Ha as ->. destruct (run_call t (CGet k) w) as [? r0| |]; try discriminate. injection Hi as <-. discriminate.
Qed.
Example C31_exact_ex : holds_hash 9 demo (bs "h") = true /\ replies [(9, CGetSet (bs "h") (bs "07")); (9, CGet (bs "h"))] demo = Some [RStr ([], Some ErrWrongType); RStr (bs "7", None)].
Proof. vm_compute. auto. Qed.
