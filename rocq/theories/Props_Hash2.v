(** * Props_Hash2: HIncrBy, HSetNX, HMSet, HMGet, HKeys, HVals, HGetAll, HStrLen (single caller) *)
From Verif Require Import Base GoFloat CacheModel CacheSpec.
From Verif Require Import CacheAbs CacheRefine CacheRefineH CacheMain CacheLib Props_String Props_Counter Props_Multi Props_Db Props_Hash.

(** The value under a field of the hash stored at a key, with its dynamic type. *)
Definition field (w : world) (k f : gostr) : option gval :=
  match stored w k with
  | Some (VHash l) => match w_heap w !! l with Some o => h_map o !! f | None => None end
  | _ => None
  end.
Lemma field_obj w k f : ready w -> is_ch (view w k) -> field w k f = h_map (obj (view w k)) !! f.
Proof.
  intros Hr. apply ready_iff in Hr as (d & e & h & n & t & -> & HW). unfold field, stored, is_ch, obj. simpl.
  destruct (key_cases d h n k HW) as [[Ed Ec]|[(x & Ed & Hx & Ec)|(l & o & Ed & Ho & Ec & Hf)]]; rewrite Ec, Ed; try tauto.
  intros _. rewrite Ho. reflexivity.
Qed.

(** ** C39 *)
Theorem C39_hincrby_refuted :
  exists k f, replies [(1, CHSet k f (bs "5")); (2, CHIncrBy k f 3); (3, CHGet k f)] (new_world 0) =
    Some [RInt (1, None); RInt (8, None); RStr (bs "3", None)].
Proof. exists (bs "k"), (bs "f"). vm_compute. reflexivity. Qed.
(** Full statement: HGet then shows the returned sum.  Proved: the returned number is the sum (reduced to int64);
    the field afterwards shows the increment, so the claim holds exactly for absent (or zero) fields. *)
Theorem C39_hincrby_partial w t k f d :
  ready w -> hash_or_absent w k -> ~ past w k t -> - 2 ^ 63 <= d < 2 ^ 63 ->
  (field w k f = None \/ exists n, field w k f = Some (VInt n)) ->
  let n := match field w k f with Some (VInt n) => n | _ => 0 end in
  exists w1, run_call t (CHIncrBy k f d) w = Done w1 (RInt (match field w k f with None => d | _ => wrap64 (n + d) end, None)) /\
    forall t', ~ past w k t' -> answer t' (CHGet k f) w1 = ok_str (itoa d) /\
      forall f', f' <> f -> answer t' (CHGet k f') w1 = answer t' (CHGet k f') w.
Proof.
  intros Hr Hh Hp Hd Hf n. pose proof (proj1 (is_ch_iff w k Hr) Hh) as Hc.
  pose proof (field_obj w k f Hr Hc) as Hfo.
  pose proof (ch_purge t _ Hc) as Hcp.
  destruct (hwrite_view 0 (g_hincr 0 hincr_val itoa f d) _ Hcp) as [H1 H2].
  destruct (run_single_ex (CHIncrBy k f d) k t w _ _ Hr eq_refl eq_refl) as (w1 & E & Hr1 & Hv & Ho).
  rewrite H1 in Hv. rewrite H2 in E. clear H1 H2.
  assert (Hg : g_hincr 0 hincr_val itoa f d (obj (view w k)) =
    (o_set (obj (view w k)) f (itoa d), (match field w k f with None => d | _ => wrap64 (n + d) end, None))).
  { unfold g_hincr. rewrite <- Hfo. subst n. destruct Hf as [->|[m ->]]; reflexivity. }
  assert (Hw : obj (purge t (view w k)) = obj (view w k)) by (rewrite purge_not_past by auto; reflexivity).
  rewrite Hw, Hg in Hv, E. cbn [fst snd] in Hv, E. exists w1. split; [exact E|].
  assert (Hdl : deadline w1 k = deadline w k).
  { rewrite <- !view_dl, Hv by auto. cbn [snd]. rewrite purge_not_past by auto. reflexivity. }
  intros t' Hp'. assert (Hp1 : ~ past w1 k t') by (rewrite (past_eq w1 w) by exact Hdl; exact Hp').
  split; [|intros f' Hne]; erewrite hget_after by (auto; rewrite Hv; reflexivity).
  - rewrite o_set_eq, text_int; [reflexivity|]. apply is_int64_iff. unfold min_int64, max_int64. lia.
  - rewrite o_set_ne by auto. symmetry. rewrite (hget_before w t t') by auto. rewrite Hw. reflexivity.
Qed.
(** HIncrBy on a field that is not an integer fails without changing anything. *)
Theorem C39_hincrby_not_integer w t k f d v :
  ready w -> ~ past w k t -> field w k f = Some v ->
  match v with VFloat _ => True | VStr s => s <> [] | _ => False end ->
  exists w1, run_call t (CHIncrBy k f d) w = Done w1 (RInt (0, Some ErrHashValueIsNotFloat)) /\ indist w1 w.
Proof.
  intros Hr Hp Hf Hv0.
  assert (Hh : hash_or_absent w k).
  { unfold field in Hf. right. destruct (stored w k) as [[]|]; try discriminate. eauto. }
  pose proof (proj1 (is_ch_iff w k Hr) Hh) as Hc. pose proof (field_obj w k f Hr Hc) as Hfo. rewrite Hf in Hfo.
  destruct (run_single_ex (CHIncrBy k f d) k t w _ _ Hr eq_refl eq_refl) as (w1 & E & Hr1 & Hv & Ho).
  rewrite purge_not_past in * by auto.
  assert (Hx : a_hwrite 0 (g_hincr 0 hincr_val itoa f d) (view w k) = (view w k, (0, Some ErrHashValueIsNotFloat))).
  { unfold a_hwrite, is_ch, obj in *. destruct (view w k) as [[[x|o]|] e]; cbn [fst snd] in *; [destruct Hc| |].
    - unfold g_hincr. rewrite <- Hfo.
      assert (Hn : hincr_val v d = None). { destruct v as [s| | | | | | | |]; try (exfalso; exact Hv0); [|reflexivity]. unfold hincr_val. rewrite bool_decide_eq_false_2; auto. }
      rewrite Hn. reflexivity.
    - discriminate Hfo. }
  rewrite Hx in *. exists w1. split; [exact E|]. apply indist_of_view; auto.
  intros k'. destruct (decide (k' = k)) as [->|]; auto.
Qed.
Example C39_nonvacuous : hash_or_absent demo (bs "h") /\ field demo (bs "h") (bs "new") = None /\ field demo (bs "h") (bs "f") = Some (VStr (bs "v")) /\
  replies [(9, CHIncrBy (bs "h") (bs "new") 7); (9, CHGet (bs "h") (bs "new")); (9, CHIncrBy (bs "h") (bs "f") 1)] demo =
  Some [RInt (7, None); RStr (bs "7", None); RInt (0, Some ErrHashValueIsNotFloat)].
Proof. split; [right; vm_compute; eauto|]. vm_compute. auto. Qed.

(** ** C40 *)
Theorem C40_hsetnx w t k f v :
  ready w -> hash_or_absent w k -> ~ past w k t ->
  exists w1 n, run_call t (CHSetNX k f v) w = Done w1 (RInt (n, None)) /\
    if has_field t w k f then n = 0 /\ indist w1 w
    else n = 1 /\ forall t', ~ past w k t' -> answer t' (CHGet k f) w1 = ok_str v /\
           forall f', f' <> f -> answer t' (CHGet k f') w1 = answer t' (CHGet k f') w.
Proof.
  intros Hr Hh Hp. pose proof (proj1 (is_ch_iff w k Hr) Hh) as Hc. pose proof (ch_purge t _ Hc) as Hcp.
  rewrite has_field_obj, o_get_is by auto.
  destruct (run_single_ex (CHSetNX k f v) k t w _ _ Hr eq_refl eq_refl) as (w1 & E & Hr1 & Hv & Ho).
  match type of Hv with _ = fst (a_hwrite 0 ?g _) => destruct (hwrite_view 0 g _ Hcp) as [H1 H2] end.
  rewrite H1 in Hv. rewrite H2 in E. clear H1 H2. rewrite purge_not_past in * by auto.
  destruct (h_map (obj (view w k)) !! f) as [x|] eqn:Ex; cbn [fst snd] in *; exists w1; eexists; (split; [exact E|]); (split; [reflexivity|]).
  - apply indist_of_view; auto. intros k'. destruct (decide (k' = k)) as [->|]; [|auto]. rewrite Hv.
    unfold obj, is_ch in *. destruct (view w k) as [[[y|o]|] e]; cbn [fst snd] in *; [destruct Hc|reflexivity|].
    discriminate Ex.
  - assert (Hdl : deadline w1 k = deadline w k) by (rewrite <- !view_dl, Hv by auto; reflexivity).
    intros t' Hp'. assert (Hp1 : ~ past w1 k t') by (rewrite (past_eq w1 w) by exact Hdl; exact Hp').
    split; [|intros f' Hne]; erewrite hget_after by (auto; rewrite Hv; reflexivity); unfold o_get; cbn [h_map].
    + rewrite lookup_insert. reflexivity.
    + rewrite lookup_insert_ne by auto. symmetry. rewrite (hget_before w t t') by auto. rewrite purge_not_past by auto. reflexivity.
Qed.
Example C40_nonvacuous : replies [(9, CHSetNX (bs "h") (bs "f") (bs "x")); (9, CHSetNX (bs "h") (bs "g") (bs "007")); (9, CHMGet (bs "h") [bs "f"; bs "g"])] demo =
  Some [RInt (0, None); RInt (1, None); RSlots ([SlotStr (bs "v"); SlotStr (bs "007")], None)].
Proof. vm_compute. reflexivity. Qed.

(** ** C41 *)
Lemma o_mset_get fv : forall o n f, NoDup (map fst fv) ->
  (forall v, (f, v) ∈ fv -> o_get (fst (o_mset o fv n)) f = Some (text v)) /\
  (f ∉ map fst fv -> o_get (fst (o_mset o fv n)) f = o_get o f).
Proof.
  induction fv as [|[g u] r IH]; intros o n f Hnd; [split; [intros v H; inversion H|reflexivity]|].
  cbn [map fst] in Hnd. apply list.NoDup_cons in Hnd as [Hn Hnd]. cbn [o_mset map fst].
  destruct (IH (o_set o g u) (n + o_isnew o g) f Hnd) as [A B]. split.
  - intros v Hin. apply elem_of_cons in Hin as [E|Hin]; [|auto]. injection E as -> ->. rewrite B by exact Hn. apply o_set_eq.
  - intros Hni. rewrite not_elem_of_cons in Hni. destruct Hni as [H1 H2]. rewrite B by auto. apply o_set_ne, H1.
Qed.
Lemma o_mset_count fv : forall o n, NoDup (map fst fv) ->
  snd (o_mset o fv n) = n + zlen (List.filter (fun p => negb match o_get o (fst p) with Some _ => true | None => false end) fv).
Proof.
  induction fv as [|[g u] r IH]; intros o n Hnd; [cbn [o_mset List.filter snd]; rewrite zlen_nil; lia|].
  cbn [map fst] in Hnd. apply list.NoDup_cons in Hnd as [Hn Hnd]. cbn [o_mset List.filter fst]. rewrite IH by auto.
  assert (Hf : List.filter (fun p : gostr * gostr => negb match o_get (o_set o g u) (fst p) with Some _ => true | None => false end) r =
               List.filter (fun p => negb match o_get o (fst p) with Some _ => true | None => false end) r).
  { apply List.filter_ext_in. intros [h y] Hin. cbn [fst]. rewrite o_set_ne; [reflexivity|]. intros ->. apply Hn.
    apply elem_of_list_fmap. exists (g, y). split; [reflexivity|]. apply elem_of_list_In, Hin. }
  rewrite Hf. unfold o_isnew. rewrite o_get_is. destruct (h_map o !! g); cbn [negb]; rewrite ?zlen_cons; lia.
Qed.
Theorem C41_hmset w t k fv :
  ready w -> hash_or_absent w k -> ~ past w k t -> NoDup (map fst fv) ->
  exists w1, run_call t (CHMSet k fv) w =
               Done w1 (RInt (zlen (List.filter (fun p => negb (has_field t w k (fst p))) fv), None)) /\
    forall t', ~ past w k t' ->
      (forall f v, (f, v) ∈ fv -> answer t' (CHGet k f) w1 = ok_str (text v)) /\
      (forall f, f ∉ map fst fv -> answer t' (CHGet k f) w1 = answer t' (CHGet k f) w).
Proof.
  intros Hr Hh Hp Hnd. pose proof (proj1 (is_ch_iff w k Hr) Hh) as Hc. pose proof (ch_purge t _ Hc) as Hcp.
  destruct (run_single_ex (CHMSet k fv) k t w _ _ Hr eq_refl eq_refl) as (w1 & E & Hr1 & Hv & Ho).
  match type of Hv with _ = fst (a_hwrite 0 ?g _) => destruct (hwrite_view 0 g _ Hcp) as [H1 H2] end.
  rewrite H1 in Hv. rewrite H2 in E. clear H1 H2.
  pose proof (o_mset_count fv (obj (purge t (view w k))) 0 Hnd) as Hn.
  pose proof (fun f => o_mset_get fv (obj (purge t (view w k))) 0 f Hnd) as Hg.
  destruct (o_mset (obj (purge t (view w k))) fv 0) as [o' n]. cbn [fst snd] in *. exists w1. split.
  - rewrite E. subst n. rewrite Z.add_0_l. do 4 f_equal. apply List.filter_ext_in. intros [g y] _. cbn [fst]. rewrite has_field_obj by auto. reflexivity.
  - assert (Hdl : deadline w1 k = deadline w k) by (rewrite <- !view_dl, Hv by auto; cbn [snd]; rewrite purge_not_past by auto; reflexivity).
    intros t' Hp'. assert (Hp1 : ~ past w1 k t') by (rewrite (past_eq w1 w) by exact Hdl; exact Hp').
    split; intros f; [intros v|]; intros Hin; erewrite hget_after by (auto; rewrite Hv; reflexivity); destruct (Hg f) as [A B].
    + rewrite (A v Hin). reflexivity.
    + rewrite (B Hin). symmetry. apply hget_before; auto.
Qed.
Lemma o_mset_perm fv fv' o : NoDup (map fst fv) -> fv ≡ₚ fv' ->
  h_map (fst (o_mset o fv 0)) = h_map (fst (o_mset o fv' 0)) /\ h_len (fst (o_mset o fv 0)) = h_len (fst (o_mset o fv' 0)) /\ snd (o_mset o fv 0) = snd (o_mset o fv' 0).
Proof.
  intros Hnd Hp. generalize 0. revert o Hnd. induction Hp as [|[f v] l l' Hp IH|[f v] [g u] l|l1 l2 l3 Hp1 IH1 Hp2 IH2]; intros o Hnd n; auto.
  - cbn [map fst] in Hnd. apply list.NoDup_cons in Hnd as [_ Hnd]. cbn [o_mset]. apply IH, Hnd.
  - cbn [map fst] in Hnd. apply list.NoDup_cons in Hnd as [Hn Hnd]. rewrite not_elem_of_cons in Hn. destruct Hn as [Hne _].
    cbn [o_mset]. 
    assert (E1 : o_set (o_set o f v) g u = o_set (o_set o g u) f v).
    { unfold o_set, o_isnew. cbn [h_map h_len]. rewrite !lookup_insert_ne by auto. f_equal; [apply insert_commute; auto|].
      rewrite !wrap64_add_l. f_equal. lia. }
    assert (E2 : n + o_isnew o f + o_isnew (o_set o f v) g = n + o_isnew o g + o_isnew (o_set o g u) f).
    { unfold o_isnew, o_set. cbn [h_map]. rewrite !lookup_insert_ne by auto. lia. }
    rewrite E1, E2. auto.
  - assert (Hnd2 : NoDup (map fst l2)) by (rewrite <- Hp1; exact Hnd).
    destruct (IH1 o Hnd n) as (A & B & C), (IH2 o Hnd2 n) as (A' & B' & C'). repeat split; congruence.
Qed.
Theorem C41_hmset_any_order w t k fv fv' w1 r w1' r' :
  ready w -> NoDup (map fst fv) -> fv ≡ₚ fv' ->
  run_call t (CHMSet k fv) w = Done w1 r -> run_call t (CHMSet k fv') w = Done w1' r' -> r = r' /\ indist w1 w1'.
Proof.
  intros Hr Hnd Hp E E'.
  destruct (run_single _ k _ _ _ _ Hr E eq_refl) as (Ha & Hr1 & Ho). destruct (run_single _ k _ _ _ _ Hr E' eq_refl) as (Ha' & Hr1' & Ho').
  assert (Hx : abs1 (CHMSet k fv) t (view w k) = abs1 (CHMSet k fv') t (view w k)).
  { cbn [abs1]. f_equal. unfold a_hwrite. destruct (fst (purge t (view w k))) as [[x|o]|]; [reflexivity| |].
    - destruct (o_mset_perm fv fv' o Hnd Hp) as (A & B & C). destruct (o_mset o fv 0) as [[m1 n1] c1], (o_mset o fv' 0) as [[m2 n2] c2]. cbn in *. congruence.
    - destruct (o_mset_perm fv fv' empty_hobj Hnd Hp) as (A & B & C). destruct (o_mset empty_hobj fv 0) as [[m1 n1] c1], (o_mset empty_hobj fv' 0) as [[m2 n2] c2]. cbn in *. congruence. }
  rewrite Hx, Ha' in Ha. injection Ha as Hv ->. split; [reflexivity|]. apply indist_of_view; auto.
  intros k'. destruct (decide (k' = k)) as [->|Hne]; [congruence|]. rewrite Ho, Ho'; auto.
Qed.
(** The slot HMGet should give, from what HGet answers. *)
Definition slot_of_hget (t : Z) (w : world) (k f : gostr) : option slot :=
  match answer t (CHGet k f) w with
  | Some (RStr (s, None)) => Some (SlotStr s)
  | Some (RStr (_, Some e)) => Some (SlotErr e)
  | _ => None
  end.
Theorem C41_hmget w t k fs :
  ready w -> (hash_or_absent w k \/ past w k t) ->
  exists slots, answer t (CHMGet k fs) w = Some (RSlots (slots, None)) /\ map Some slots = map (slot_of_hget t w k) fs.
Proof.
  intros Hr Hh.
  assert (Hc : is_ch (purge t (view w k))).
  { destruct Hh as [Hh|Hh]; [apply ch_purge, is_ch_iff; auto|]. unfold is_ch. rewrite purge_past by auto. exact I. }
  assert (Hs : forall f, slot_of_hget t w k f = Some (slot_field (o_get (obj (purge t (view w k))) f))).
  { intros f. unfold slot_of_hget. rewrite hget_obj by auto. destruct (o_get _ f); reflexivity. }
  rewrite (answer_single _ k) by auto. cbn [abs1]. unfold wr, a_hread.
  exists (map (fun f => slot_field (o_get (obj (purge t (view w k))) f)) fs). split.
  - unfold is_ch, obj in *. destruct (fst (purge t (view w k))) as [[x|o]|]; [destruct Hc|reflexivity|]. cbn [snd]. reflexivity.
  - rewrite map_map. apply map_ext. intros f. rewrite Hs. reflexivity.
Qed.
Example C41_nonvacuous : replies [(9, CHMSet (bs "h") [(bs "f", bs "1"); (bs "g", bs "2")]); (9, CHMGet (bs "h") [bs "g"; bs "f"; bs "x"; bs "g"])] demo =
  Some [RInt (1, None); RSlots ([SlotStr (bs "2"); SlotStr (bs "1"); SlotErr ErrKeyNil; SlotStr (bs "2")], None)].
Proof. vm_compute. reflexivity. Qed.

(** ** C42 *)
Theorem C42_hkeys_absent_refuted : exists k, run_call 1 (CHKeys k) (new_world 0) = EPanic.
Proof. exists (bs "k"). reflexivity. Qed.
(** Full statement: also for absent keys.  Proved for keys stored as hashes. *)
Theorem C42_hkeys_partial w t k l :
  ready w -> stored w k = Some (VHash l) -> ~ past w k t ->
  exists fs, answer t (CHKeys k) w = Some (RList (fs, None)) /\ NoDup fs /\ forall f, f ∈ fs <-> has_field t w k f = true.
Proof.
  intros Hr Hs Hp. destruct (view_hash w k l Hr Hs) as (o & Ho & _).
  assert (Hc : is_ch (purge t (view w k))) by (rewrite purge_not_past by auto; unfold is_ch; rewrite Ho; exact I).
  rewrite (answer_single _ k) by auto. cbn [abs1]. rewrite purge_not_past by auto. rewrite Ho.
  eexists. split; [reflexivity|]. split; [apply NoDup_fst_map_to_list|].
  intros f. rewrite has_field_obj, o_get_is by auto. rewrite purge_not_past by auto. unfold obj. rewrite Ho. split.
  - intros Hin. apply elem_of_list_fmap in Hin as ([f' x] & -> & Hin). apply elem_of_map_to_list in Hin. cbn [fst]. rewrite Hin. reflexivity.
  - destruct (h_map o !! f) as [x|] eqn:Ex; [|discriminate]. intros _. apply elem_of_list_fmap. exists (f, x). split; [reflexivity|].
    apply elem_of_map_to_list, Ex.
Qed.
(** On an absent or expired key each of the three enumerations crashes. *)
Theorem C42_enumeration_absent_panics w t k :
  ready w -> readable t w k = false ->
  run_call t (CHKeys k) w = EPanic /\ run_call t (CHVals k) w = EPanic /\ run_call t (CHGetAll k) w = EPanic.
Proof.
  intros Hr Hn. rewrite readable_view in Hn by auto. destruct (fst (purge t (view w k))) eqn:E; [discriminate|].
  repeat split; (apply run_panic; [auto|]); rewrite (abs_single _ k) by reflexivity; cbn [abs1]; rewrite E; reflexivity.
Qed.
Example C42_nonvacuous : exists l, stored demo (bs "h") = Some (VHash l) /\ answer 9 (CHKeys (bs "h")) demo = Some (RList ([bs "f"], None)) /\ readable 9 demo (bs "none") = false.
Proof. eexists. vm_compute. auto. Qed.

(** ** C43 *)
Theorem C43_hvals_refuted :
  exists k f, replies [(1, CHSet k f (bs "1")); (2, CHGet k f); (2, CHVals k)] (new_world 0) = Some [RInt (1, None); RStr (bs "1", None); RList ([], None)].
Proof. exists (bs "k"), (bs "f"). vm_compute. reflexivity. Qed.
(** Full statement: [fs] enumerates all fields.  Proved: it enumerates the fields kept as text; numbers are left out. *)
Theorem C43_hvals_partial w t k l :
  ready w -> stored w k = Some (VHash l) -> ~ past w k t ->
  exists fs vs, answer t (CHVals k) w = Some (RList (vs, None)) /\ NoDup fs /\
    (forall f, f ∈ fs <-> exists s, field w k f = Some (VStr s)) /\
    map ok_str vs = map (fun f => answer t (CHGet k f) w) fs.
Proof.
  intros Hr Hs Hp. destruct (view_hash w k l Hr Hs) as (o & Ho & _).
  assert (Hc : is_ch (view w k)) by (unfold is_ch; rewrite Ho; exact I).
  rewrite (answer_single _ k) by auto. cbn [abs1]. rewrite purge_not_past by auto. rewrite Ho.
  assert (Hfo : forall f, field w k f = h_map o !! f) by (intros f; rewrite field_obj by auto; unfold obj; rewrite Ho; reflexivity).
  assert (Hg : forall f, answer t (CHGet k f) w = match o_get o f with Some s => ok_str s | None => err_str ErrKeyNil end).
  { intros f. rewrite hget_obj by auto using ch_purge. rewrite purge_not_past by auto. unfold obj. rewrite Ho. reflexivity. }
  set (P := fun e : gostr * gval => match snd e with VStr s => Some s | _ => None end).
  assert (G : forall es, NoDup (map fst es) -> (forall f x, (f, x) ∈ es -> h_map o !! f = Some x) ->
    exists fs, NoDup fs /\ (forall f, f ∈ fs <-> exists s, (f, VStr s) ∈ es) /\ map ok_str (omap P es) = map (fun f => answer t (CHGet k f) w) fs).
  { induction es as [|[f x] es IH]; intros Hnd Hes.
    - exists []. split; [constructor|]. split; [|reflexivity]. intros f. rewrite elem_of_nil. split; [tauto|]. intros [s H]. inversion H.
    - cbn [map fst] in Hnd. apply list.NoDup_cons in Hnd as [Hn Hnd].
      destruct IH as (fs & H1 & H2 & H3); [auto|intros; apply Hes; right; auto|].
      change (omap P ((f, x) :: es)) with (match P (f, x) with Some y => y :: omap P es | None => omap P es end). unfold P at 1. cbn [snd].
      assert (Hx : h_map o !! f = Some x) by (apply Hes; left).
      destruct x as [s| | | | | | | |];
        try (exists fs; split; [auto|]; split; [|exact H3]; intros g; rewrite H2; split;
             intros [s' Hs']; exists s'; [right; exact Hs'|]; apply elem_of_cons in Hs' as [E|Hs']; [discriminate E|exact Hs']).
      exists (f :: fs). split; [|split].
      + apply list.NoDup_cons. split; [|exact H1]. rewrite H2. intros [s' Hs']. apply Hn. apply elem_of_list_fmap. exists (f, VStr s'). auto.
      + intros g. rewrite elem_of_cons, H2. split.
        * intros [->|[s' Hs']]; [exists s; left|exists s'; right; auto].
        * intros [s' Hs']. apply elem_of_cons in Hs' as [E|Hs']; [left; congruence|right; eauto].
      + cbn [map]. rewrite H3, Hg. unfold o_get. rewrite Hx. reflexivity. }
  destruct (G (map_to_list (h_map o))) as (fs & H1 & H2 & H3).
  - apply NoDup_fst_map_to_list.
  - intros f x. apply elem_of_map_to_list.
  - exists fs. eexists. split; [reflexivity|]. split; [exact H1|]. split; [|exact H3].
    intros f. rewrite H2. split; intros [s H]; exists s.
    + rewrite Hfo. apply elem_of_map_to_list, H.
    + apply elem_of_map_to_list. rewrite <- Hfo. exact H.
Qed.
Example C43_nonvacuous : answer 9 (CHVals (bs "h")) demo = Some (RList ([bs "v"], None)).
Proof. vm_compute. reflexivity. Qed.

(** ** C44 *)
Theorem C44_hgetall_refuted :
  exists k f v, replies [(1, CHSet k f v); (2, CHGet k f); (3, CHGetAll k)] (new_world 0) = Some [RInt (1, None); RStr (v, None); RMap (None, None)].
Proof. exists (bs "k"), (bs "f"), (bs "v"). vm_compute. reflexivity. Qed.
(** Full statement: the returned map is the hash.  Proved: what is returned (a nil map) for every hash, right only for hashes without fields. *)
Theorem C44_hgetall_partial w t k l :
  ready w -> stored w k = Some (VHash l) -> ~ past w k t -> answer t (CHGetAll k) w = Some (RMap (None, None)).
Proof.
  intros Hr Hs Hp. destruct (view_hash w k l Hr Hs) as (o & Ho & _).
  rewrite (answer_single _ k) by auto. cbn [abs1]. rewrite purge_not_past by auto. rewrite Ho. reflexivity.
Qed.

(** ** C45 *)
Definition hash_call (c : call) : Prop :=
  match c with
  | CHSet _ _ _ | CHSetNX _ _ _ | CHExists _ _ | CHDel _ _ | CHLen _ | CHStrLen _ _ | CHIncrBy _ _ _ | CHIncrByFloat _ _ _
  | CHMSet _ _ | CHMGet _ _ | CHKeys _ | CHVals _ | CHGetAll _ | CHGet _ _ => True
  | _ => False
  end.
Definition wrong_type_reply (r : reply) : Prop :=
  match r with
  | RStr ([], Some ErrWrongType) | RInt (0, Some ErrWrongType) | RFloat (S754_zero false, Some ErrWrongType)
  | RSlots ([], Some ErrWrongType) | RList ([], Some ErrWrongType) | RMap (None, Some ErrWrongType) => True
  | _ => False
  end.
Theorem C45_hash_call_on_string w t k v c :
  ready w -> stored w k = Some v -> scalar v -> ~ past w k t -> hash_call c -> only_names c k ->
  exists w1 r, run_call t c w = Done w1 r /\ wrong_type_reply r /\ indist w1 w.
Proof.
  intros Hr Hs Hv Hp Hc Hk. pose proof (view_scalar w k v Hr Hv Hs) as Hview.
  assert (Hsk : single c = Some k) by (destruct c; try destruct Hc; unfold only_names in Hk; cbn in *; congruence).
  assert (Ha : exists r, abs1 c t (view w k) = Some (view w k, r) /\ wrong_type_reply r).
  { destruct c; try destruct Hc; cbn [abs1]; rewrite purge_not_past by auto; unfold wr, a_hwrite, a_hread; rewrite Hview; eexists; (split; [reflexivity|exact I]). }
  destruct Ha as (r & Ha & Hw). destruct (run_single_ex c k t w _ _ Hr Hsk Ha) as (w1 & E & Hr1 & Hv1 & Ho).
  exists w1, r. split; [exact E|]. split; [exact Hw|]. apply indist_of_view; auto.
  intros k'. destruct (decide (k' = k)) as [->|]; auto.
Qed.
Example C45_nonvacuous : stored demo (bs "a") = Some (VStr (bs "hello")) /\
  answer 9 (CHIncrByFloat (bs "a") (bs "f") (f64_of_int 1)) demo = Some (RFloat (S754_zero false, Some ErrWrongType)).
Proof. vm_compute. auto. Qed.

(** ** C46 *)
Theorem C46_hstrlen w t k f :
  ready w ->
  answer t (CHStrLen k f) w =
  match answer t (CHGet k f) w with
  | Some (RStr (s, None)) => ok_int (zlen s)
  | Some (RStr (_, Some ErrKeyNil)) => ok_int 0
  | Some (RStr (_, Some e)) => err_int e
  | _ => None
  end.
Proof.
  intros Hr. rewrite !(answer_single _ k) by auto. cbn [abs1]. unfold wr, a_hread.
  destruct (fst (purge t (view w k))) as [[x|o]|]; [reflexivity| |reflexivity]. cbn [snd]. destruct (o_get o f); reflexivity.
Qed.
Example C46_nonvacuous : answer 9 (CHStrLen (bs "h") (bs "f")) demo = ok_int 1 /\ answer 9 (CHStrLen (bs "a") (bs "f")) demo = err_int ErrWrongType.
Proof. vm_compute. auto. Qed.

Print Assumptions C35_hlen_partial.
Print Assumptions C36_hexists_partial.
Print Assumptions C37_hdel.
Print Assumptions C41_hmset.
Print Assumptions C43_hvals_partial.
Print Assumptions C45_hash_call_on_string.
