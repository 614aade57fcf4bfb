(** * Props_Float: float values and their text (single caller) *)
From Verif Require Import Base GoFloat FloatLib CacheModel CacheSpec.
From Verif Require Import CacheAbs CacheRefine CacheRefineH CacheMain CacheLib Props_String Props_Counter Props_Multi Props_Db Props_Hash Props_Hash2.

Lemma text_format f : f64_valid f = true -> f <> S754_zero true -> text (format_float f) = format_float f.
Proof.
  intros Hv Hz. unfold text. destruct (atoi (format_float f)) as [n|] eqn:E; [apply atoi_format; auto|]. rewrite parse_format by auto. reflexivity.
Qed.
Lemma format_minus_zero f : f64_valid f = true -> format_float f = bs "-0" -> f = S754_zero true.
Proof. intros Hv E. pose proof (parse_format f Hv) as H. rewrite E in H. vm_compute in H. congruence. Qed.

(** ** C02, continued: the stored text is stored as itself, except for a negative zero *)
Theorem C02_text_idempotent v : text v <> bs "-0" -> text (text v) = text v.
Proof.
  unfold text at 1 3 4. destruct (atoi v) as [n|] eqn:Ea; [intros _; apply text_int; eapply atoi_int64; eauto|].
  destruct (parse_float v) as [f|] eqn:Ef; [|intros _; unfold text; rewrite Ea, Ef; reflexivity].
  intros Hz. apply text_format; [eapply parse_float_valid; eauto|]. intros ->. apply Hz. reflexivity.
Qed.
(** A number literal that is not an integer literal keeps its value exactly. *)
Theorem C02_text_of_floats v f : atoi v = None -> parse_float v = Some f -> parse_float (text v) = Some f.
Proof. intros Ha Hf. unfold text. rewrite Ha, Hf. apply parse_format. eapply parse_float_valid; eauto. Qed.
Example C02_floats_nonvacuous : atoi (bs "0.1e0") = None /\ text (bs "0.1e0") = bs "0.1" /\ text (bs "1e3") = bs "1000" /\ text (text (bs "-0.0")) = bs "0" /\ text (bs "-0.0") = bs "-0".
Proof. vm_compute. auto. Qed.

(** ** C120: copying *)
(** The arguments of a call have the Go types int and float64. *)
Definition typed (c : call) : Prop :=
  match c with
  | CIncrBy _ d | CDecrBy _ d | CHIncrBy _ _ d => - 2 ^ 63 <= d < 2 ^ 63
  | CIncrByFloat _ f | CHIncrByFloat _ _ f => f64_valid f = true
  | _ => True
  end.
(** States reachable from New() by a single caller using Go's types. *)
Definition reachable_typed (w : world) : Prop :=
  exists t0 h rs, all_calls (fun _ c => typed c) h /\ run_hist h (new_world t0) = Done w rs.

Definition keptval (v : gval) : Prop :=
  match v with
  | VStr s => atoi s = None /\ parse_float s = None
  | VInt n | VInt64 n => is_int64 n = true
  | VFloat f => f64_valid f = true
  | _ => False
  end.
Definition keptv (v : kview) : Prop := match fst v with Some (CV x) => keptval x | _ => True end.
Lemma kept_try s : keptval (try_int64 s).
Proof.
  unfold try_int64. destruct (atoi s) eqn:Ea; [eapply atoi_int64; eauto|]. destruct (parse_float s) eqn:Ef; [eapply parse_float_valid; eauto|split; auto].
Qed.
Lemma kept_put s v : keptv (put s v).
Proof. apply kept_try. Qed.
Lemma kept_purge t v : keptv v -> keptv (purge t v).
Proof. destruct v as [[c|] [dl|]]; auto. cbn. destruct (dl <? t); [exact (fun _ => I)|auto]. Qed.
Lemma kept_incr d v : is_int64 d = true -> keptv v -> keptv (fst (a_incr d v)).
Proof.
  intros Hd H. unfold a_incr. destruct v as [[[x|o]|] e]; cbn [fst snd] in *; auto.
  destruct x; cbn in *; auto; try contradiction; apply wrap64_is_int64.
Qed.
Lemma kept_hwrite {A} (z : A) g v : keptv v -> keptv (fst (a_hwrite z g v)).
Proof. intros H. unfold a_hwrite. destruct v as [[[x|o]|] e]; cbn [fst snd] in *; auto; [destruct (g o)|destruct (g empty_hobj)]; exact I. Qed.
Lemma kept_hread {A} (z : A) a g v : keptv v -> keptv (fst (a_hread z a g v)).
Proof. intros H. unfold a_hread. destruct v as [[[x|o]|] e]; cbn [fst snd] in *; auto. destruct (g o); exact I. Qed.
Lemma int64_of d : - 2 ^ 63 <= d < 2 ^ 63 -> is_int64 d = true.
Proof. intros. apply is_int64_iff. unfold min_int64, max_int64. lia. Qed.
Lemma wr_fst {A} (R : A -> reply) x v' r : wr R x = Some (v', r) -> v' = fst x.
Proof. destruct x. intros [= <- _]. reflexivity. Qed.
Lemma kept_abs1 c t v v' r : typed c -> keptv v -> abs1 c t v = Some (v', r) -> keptv v'.
Proof.
  intros Ht Hv Ha. pose proof (kept_purge t v Hv) as Hp.
  destruct c; cbn [abs1] in Ha; try discriminate; cbn [typed] in Ht;
    try (first [apply wr_fst in Ha as -> | injection Ha as <- _]; first [exact (kept_put _ _) | exact Hp | exact (kept_hwrite _ _ _ Hp) | exact (kept_hread _ _ _ _ Hp) | exact (kept_try _) | exact I
      | apply kept_incr; [first [reflexivity | exact (int64_of _ Ht) | apply wrap64_is_int64] | exact Hv]]).
  - destruct (fst v); injection Ha as <- _; [exact Hv|apply kept_put].
  - destruct (fst (purge t v)) as [x|]; [destruct (fmt_cell x)|]; injection Ha as <- _; auto using kept_put.
  - destruct (pos <? 0); [injection Ha as <- _; exact Hv|].
    destruct (fst (purge t v)) as [x|]; [destruct (fmt_cell x)|destruct (pos >? max_alloc); [discriminate|]]; injection Ha as <- _; auto using kept_put.
  - unfold keptv in Hv. destruct v as [[[x|o]|] e]; cbn [fst snd] in *; [destruct x| |]; injection Ha as <- _; auto; try exact Hv; try (apply f64_add_valid; auto using f64_of_int_valid).
  - destruct (fst (purge t v)) as [[x|o]|] eqn:E; try discriminate; injection Ha as <- _; exact Hp.
  - destruct (fst (purge t v)) as [[x|o]|] eqn:E; try discriminate; injection Ha as <- _; exact Hp.
  - destruct (fst (purge t v)) as [[x|o]|] eqn:E; try discriminate; injection Ha as <- _; exact Hp.
Qed.
Definition kepts (V : views) : Prop := forall k, keptv (V k).
Lemma kepts_upd V k x : kepts V -> keptv x -> kepts (upd V k x).
Proof. intros H Hx k'. unfold upd. destruct (decide (k' = k)); auto. Qed.
Lemma kepts_abs c t V V' r : typed c -> kepts V -> abs c t V = Some (V', r) -> kepts V'.
Proof.
  intros Ht HV Ha. destruct (single_cases c) as [[k Hk]|Hc].
  - rewrite (abs_single c k t _ Hk) in Ha. destruct (abs1 c t (V k)) as [[x r0]|] eqn:E; [|discriminate].
    injection Ha as <- <-. apply kepts_upd; [exact HV|]. eapply kept_abs1; [exact Ht|apply HV|exact E].
  - destruct c; try destruct Hc; cbn [abs] in Ha.
    + injection Ha as <- _. revert V HV. clear Ht. induction kv as [|[k v] kv IH]; intros V HV; [exact HV|]. cbn. apply IH, kepts_upd; auto using kept_put.
    + assert (G : forall kv n V, kepts V -> kepts (fst (a_msetnx kv n V))).
      { clear. induction kv as [|[k v] kv IH]; intros n V HV; [exact HV|]. cbn. destruct (fst (V k)); apply IH; auto. apply kepts_upd; auto using kept_put. }
      specialize (G kv 0 V HV). destruct (a_msetnx kv 0 V). injection Ha as <- _. exact G.
    + assert (G : forall ks V, kepts V -> kepts (fst (a_mget t ks V))).
      { clear. induction ks as [|k ks IH]; intros V HV; [exact HV|]. cbn. specialize (IH (upd V k (purge t (V k)))). 
        destruct (a_mget t ks _). apply IH, kepts_upd; auto using kept_purge. }
      specialize (G ks V HV). destruct (a_mget t ks V). injection Ha as <- _. exact G.
    + injection Ha as <- _. intros k. exact I.
    + injection Ha as <- _. exact HV.
    + injection Ha as <- _. intros k. unfold a_cron. specialize (HV k). destruct (V k) as [[c|] e]; cbn [fst]; [|exact HV].
      destruct (zero_time <? t); [exact I|]. exact HV.
Qed.
Lemma kepts_hist h : forall w w' rs, ready w -> kepts (view w) -> all_calls (fun _ c => typed c) h -> run_hist h w = Done w' rs -> kepts (view w').
Proof.
  induction h as [|[t c] h IH]; intros w w' rs Hr Hg Hall; simpl; [intros E; injection E as <- <-; auto|].
  destruct (run_call t c w) as [w1 x| |] eqn:E1; [|discriminate|discriminate].
  destruct (run_hist h w1) as [w2 xs| |] eqn:E2; [|discriminate|discriminate].
  apply Forall_cons_1 in Hall as [H1 H2]. cbn in H1.
  intros E; injection E as <- <-. destruct (run_inv _ _ _ _ _ Hr E1) as (V' & Ha & Hr1 & Hv).
  eapply IH; [exact Hr1| |exact H2|exact E2]. intros k. rewrite Hv. eapply kepts_abs; eauto.
Qed.
Lemma kepts_reachable w : reachable_typed w -> ready w /\ kepts (view w).
Proof.
  intros (t0 & h & rs & Hall & E). split; [eapply ready_hist; [apply ready_new|exact E]|]. eapply kepts_hist; [apply ready_new| |exact Hall|exact E].
  intros k. rewrite view_new. exact I.
Qed.
Lemma kept_text x s : keptval x -> fmt_string x = Some s -> s <> bs "-0" -> text s = s.
Proof.
  destruct x; cbn; try contradiction; intros Hk [= <-] Hz.
  - destruct Hk as [Ha Hf]. unfold text. rewrite Ha, Hf. reflexivity.
  - apply text_int, Hk.
  - apply text_int, Hk.
  - apply text_format; [exact Hk|]. intros ->. apply Hz. reflexivity.
Qed.
(** Full statement: the same without the hypothesis on [v], refuted below. *)
Theorem C120_copy_partial w t k v k' t1 w1 r t2 :
  reachable_typed w -> answer t (CGet k) w = ok_str v -> v <> bs "-0" -> deadline w k' = None ->
  run_call t1 (CSet k' v) w = Done w1 r -> answer t2 (CGet k') w1 = ok_str v.
Proof.
  intros Hre Hg Hz Hd E. apply kepts_reachable in Hre as [Hr Hk]. destruct (C02_stored_text w t1 k' v w1 r t2 Hr Hd E) as [_ ->].
  rewrite (answer_single _ k) in Hg by auto. cbn [abs1] in Hg.
  pose proof (kept_purge t _ (Hk k)) as Hp. unfold keptv in Hp. destruct (fst (purge t (view w k))) as [[x|o]|]; [|discriminate|discriminate].
  unfold fmt_cret in Hg. cbn [fmt_cell] in Hg. destruct (fmt_string x) as [s|] eqn:Es; [|discriminate]. injection Hg as ->. unfold ok_str. do 3 f_equal. eapply kept_text; eauto.
Qed.
Theorem C120_copy_refuted : exists k k' v v', v <> v' /\
  replies [(1, CSet k (bs "-0.0")); (2, CGet k); (3, CSet k' v); (4, CGet k')] (new_world 0) = Some [RStr (bs "OK", None); RStr (v, None); RStr (bs "OK", None); RStr (v', None)].
Proof. exists (bs "a"), (bs "b"), (bs "-0"), (bs "0"). split; [discriminate|]. vm_compute. reflexivity. Qed.
Example C120_nonvacuous : reachable_typed demo /\
  replies [(9, CSet (bs "x") (bs "1e-3")); (9, CGet (bs "x")); (9, CSet (bs "y") (bs "0.001")); (9, CGet (bs "y"))] demo = Some [RStr (bs "OK", None); RStr (bs "0.001", None); RStr (bs "OK", None); RStr (bs "0.001", None)].
Proof.
  split; [|vm_compute; reflexivity].
  pose proof demo_replies as H. unfold replies in H. unfold demo. destruct (run_hist demo_hist (new_world 0)) as [w rs| |] eqn:E; [|discriminate|discriminate].
  exists 0, demo_hist, rs. split; [|exact E]. repeat constructor.
Qed.

(** ** C121: what Get shows after IncrByFloat is the number it returned *)
Theorem C121_incrbyfloat_text w t k f w1 x t' :
  reachable_typed w -> f64_valid f = true -> run_call t (CIncrByFloat k f) w = Done w1 (RFloat (x, None)) -> ~ past w k t' ->
  exists s, answer t' (CGet k) w1 = ok_str s /\ parse_float s = Some x.
Proof.
  intros Hre Hf E Hp. apply kepts_reachable in Hre as [Hr Hk]. destruct (run_single _ k _ _ _ _ Hr E eq_refl) as (Ha & Hr1 & _). cbn [abs1] in Ha.
  specialize (Hk k). unfold keptv in Hk.
  assert (Hv : fst (view w1 k) = Some (CV (VFloat x)) /\ snd (view w1 k) = snd (view w k) /\ f64_valid x = true).
  { destruct (view w k) as [[[y|o]|] e]; cbn [fst snd] in *; [destruct y| |]; try discriminate Ha; injection Ha as <- <-; cbn; auto using f64_add_valid, f64_of_int_valid. }
  destruct Hv as (H1 & H2 & H3).
  assert (Hp1 : ~ past w1 k t'). { unfold past. rewrite <- view_dl by auto. rewrite H2, view_dl by auto. exact Hp. }
  exists (format_float x). split; [|apply parse_format, H3]. rewrite (answer_single _ k) by auto. cbn [abs1]. rewrite purge_not_past by auto. rewrite H1. reflexivity.
Qed.
Example C121_nonvacuous : exists f g, f64_valid f = true /\ parse_float (bs "41.1") = Some g /\ 
  replies [(9, CIncrByFloat (bs "n") f); (9, CGet (bs "n"))] demo = Some [RFloat (g, None); RStr (bs "41.1", None)].
Proof.
  assert (H : match parse_float (bs "0.1"), parse_float (bs "41.1") with Some f, Some g => f64_valid f = true /\ replies [(9, CIncrByFloat (bs "n") f); (9, CGet (bs "n"))] demo = Some [RFloat (g, None); RStr (bs "41.1", None)] | _, _ => False end) by (vm_compute; auto).
  destruct (parse_float (bs "0.1")) as [f|]; [|destruct H]. destruct (parse_float (bs "41.1")) as [g|]; [|destruct H]. exists f, g. tauto.
Qed.

(** ** C119: HIncrByFloat *)
Theorem C119_hincrbyfloat_refuted : exists k f d, parse_float (bs "2.5") = Some d /\
  replies [(1, CHSet k f (bs "5")); (2, CHIncrByFloat k f d); (3, CHGet k f)] (new_world 0) =
    Some [RInt (1, None); match parse_float (bs "7.5") with Some x => RFloat (x, None) | None => RInt (0, None) end; RStr (bs "2.5", None)].
Proof.
  assert (H : match parse_float (bs "2.5") with Some d => replies [(1, CHSet (bs "k") (bs "f") (bs "5")); (2, CHIncrByFloat (bs "k") (bs "f") d); (3, CHGet (bs "k") (bs "f"))] (new_world 0) =
    Some [RInt (1, None); match parse_float (bs "7.5") with Some x => RFloat (x, None) | None => RInt (0, None) end; RStr (bs "2.5", None)] | None => False end) by (vm_compute; auto).
  destruct (parse_float (bs "2.5")) as [d|]; [|destruct H]. exists (bs "k"), (bs "f"), d. auto.
Qed.
(** Full statement: HGet then shows the returned sum. Proved: the reply is the sum; the field afterwards shows the
    increment, so that the claim holds exactly for absent (or zero) fields. *)
Theorem C119_hincrbyfloat_partial w t k f d :
  ready w -> hash_or_absent w k -> ~ past w k t -> f64_valid d = true -> d <> S754_zero true ->
  (field w k f = None \/ exists n, field w k f = Some (VInt n)) ->
  exists w1, run_call t (CHIncrByFloat k f d) w = Done w1 (RFloat (match field w k f with Some (VInt n) => f64_add (f64_of_int n) d | _ => d end, None)) /\
    forall t', ~ past w k t' -> (exists s, answer t' (CHGet k f) w1 = ok_str s /\ parse_float s = Some d) /\
      forall f', f' <> f -> answer t' (CHGet k f') w1 = answer t' (CHGet k f') w.
Proof.
  intros Hr Hh Hp Hd Hz Hf. pose proof (proj1 (is_ch_iff w k Hr) Hh) as Hc.
  pose proof (field_obj w k f Hr Hc) as Hfo.
  pose proof (ch_purge t _ Hc) as Hcp.
  destruct (hwrite_view (S754_zero false) (g_hincr (S754_zero false) hincrf_val format_float f d) _ Hcp) as [H1 H2].
  destruct (run_single_ex (CHIncrByFloat k f d) k t w _ _ Hr eq_refl eq_refl) as (w1 & E & Hr1 & Hv & Ho).
  rewrite H1 in Hv. rewrite H2 in E. clear H1 H2.
  assert (Hg : g_hincr (S754_zero false) hincrf_val format_float f d (obj (view w k)) =
    (o_set (obj (view w k)) f (format_float d), (match field w k f with Some (VInt n) => f64_add (f64_of_int n) d | _ => d end, None))).
  { unfold g_hincr. rewrite <- Hfo. destruct Hf as [->|[m ->]]; reflexivity. }
  assert (Hw : obj (purge t (view w k)) = obj (view w k)) by (rewrite purge_not_past by auto; reflexivity).
  rewrite Hw, Hg in Hv, E. cbn [fst snd] in Hv, E. exists w1. split; [exact E|].
  assert (Hdl : deadline w1 k = deadline w k).
  { rewrite <- !view_dl, Hv by auto. cbn [snd]. rewrite purge_not_past by auto. reflexivity. }
  intros t' Hp'. assert (Hp1 : ~ past w1 k t') by (rewrite (past_eq w1 w) by exact Hdl; exact Hp').
  split; [exists (format_float d); split; [|apply parse_format, Hd]|intros f' Hne]; erewrite hget_after by (auto; rewrite Hv; reflexivity).
  - rewrite o_set_eq, text_format; auto.
  - rewrite o_set_ne by auto. symmetry. rewrite (hget_before w t t') by auto. rewrite Hw. reflexivity.
Qed.
(** A field that is not an integer makes HIncrByFloat fail without changing anything, … *)
Theorem C119_hincrbyfloat_not_integer_partial w t k f d v :
  ready w -> ~ past w k t -> field w k f = Some v ->
  match v with VFloat _ => True | VStr s => s <> [] | _ => False end ->
  exists w1, run_call t (CHIncrByFloat k f d) w = Done w1 (RFloat (S754_zero false, Some ErrHashValueIsNotFloat)) /\ indist w1 w.
Proof.
  intros Hr Hp Hf Hv0.
  assert (Hh : hash_or_absent w k).
  { unfold field in Hf. right. destruct (stored w k) as [[]|]; try discriminate. eauto. }
  pose proof (proj1 (is_ch_iff w k Hr) Hh) as Hc. pose proof (field_obj w k f Hr Hc) as Hfo. rewrite Hf in Hfo.
  destruct (run_single_ex (CHIncrByFloat k f d) k t w _ _ Hr eq_refl eq_refl) as (w1 & E & Hr1 & Hv & Ho).
  rewrite purge_not_past in * by auto.
  assert (Hx : a_hwrite (S754_zero false) (g_hincr (S754_zero false) hincrf_val format_float f d) (view w k) = (view w k, (S754_zero false, Some ErrHashValueIsNotFloat))).
  { unfold a_hwrite, is_ch, obj in *. destruct (view w k) as [[[x|o]|] e]; cbn [fst snd] in *; [destruct Hc| |].
    - unfold g_hincr. rewrite <- Hfo.
      assert (Hn : hincrf_val v d = None). { destruct v as [s| | | | | | | |]; try (exfalso; exact Hv0); [|reflexivity]. unfold hincrf_val. rewrite bool_decide_eq_false_2; auto. }
      rewrite Hn. reflexivity.
    - discriminate Hfo. }
  rewrite Hx in *. exists w1. split; [exact E|]. apply indist_of_view; auto.
  intros k'. destruct (decide (k' = k)) as [->|]; auto.
Qed.
(** … so that after one HIncrByFloat by a fraction every further one fails. *)
Theorem C119_second_call_fails_refuted w t k f d d' :
  ready w -> hash_or_absent w k -> ~ past w k t -> f64_valid d = true -> atoi (format_float d) = None ->
  field w k f = None ->
  replies [(t, CHIncrByFloat k f d); (t, CHIncrByFloat k f d')] w = Some [RFloat (d, None); RFloat (S754_zero false, Some ErrHashValueIsNotFloat)].
Proof.
  intros Hr Hh Hp Hd Ha Hf. pose proof (proj1 (is_ch_iff w k Hr) Hh) as Hc.
  pose proof (field_obj w k f Hr Hc) as Hfo. pose proof (ch_purge t _ Hc) as Hcp.
  destruct (hwrite_view (S754_zero false) (g_hincr (S754_zero false) hincrf_val format_float f d) _ Hcp) as [H1 H2].
  destruct (run_single_ex (CHIncrByFloat k f d) k t w _ _ Hr eq_refl eq_refl) as (w1 & E & Hr1 & Hv & Ho).
  rewrite H1 in Hv. rewrite H2 in E. clear H1 H2. rewrite purge_not_past in * by auto.
  assert (Hg : g_hincr (S754_zero false) hincrf_val format_float f d (obj (view w k)) = (o_set (obj (view w k)) f (format_float d), (d, None))).
  { unfold g_hincr. rewrite <- Hfo, Hf. reflexivity. }
  rewrite Hg in Hv, E. cbn [fst snd] in Hv, E.
  assert (Hc1 : is_ch (view w1 k)) by (rewrite Hv; exact I).
  assert (Hf1 : field w1 k f = Some (VFloat d)).
  { rewrite (field_obj w1 k f Hr1 Hc1), Hv. unfold obj. cbn [fst]. unfold o_set. cbn [h_map]. rewrite lookup_insert. f_equal. unfold try_int64. rewrite Ha, parse_format by exact Hd. reflexivity. }
  assert (Hp1 : ~ past w1 k t). { unfold past. rewrite <- view_dl by auto. rewrite Hv. cbn [snd]. rewrite view_dl by auto. exact Hp. }
  destruct (C119_hincrbyfloat_not_integer_partial w1 t k f d' (VFloat d) Hr1 Hp1 Hf1 I) as (w2 & E2 & _).
  unfold replies. cbn [run_hist]. rewrite E, E2. reflexivity.
Qed.
Example C119_nonvacuous : hash_or_absent demo (bs "h") /\ field demo (bs "h") (bs "x") = None /\ ~ past demo (bs "h") 9 /\
  match parse_float (bs "0.5") with Some d => f64_valid d = true /\ atoi (format_float d) = None /\
    replies [(9, CHIncrByFloat (bs "h") (bs "x") d); (9, CHIncrByFloat (bs "h") (bs "f") d)] demo = Some [RFloat (d, None); RFloat (S754_zero false, Some ErrHashValueIsNotFloat)]
  | None => False end.
Proof.
  split; [right; vm_compute; eauto|]. split; [vm_compute; reflexivity|]. split; [|vm_compute; auto].
  assert (H : deadline demo (bs "h") = None) by (vm_compute; reflexivity). intros (dl & Hd & _). congruence.
Qed.
Print Assumptions C119_second_call_fails_refuted.
Print Assumptions C120_copy_partial.
Print Assumptions C121_incrbyfloat_text.
