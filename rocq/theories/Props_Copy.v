(** * Props_Copy: for exactly which texts and keys C120, C22 and C166 hold *)
From stdpp Require Import relations.
From Verif Require Import Base GoFloat FloatLib CacheModel CacheSpec.
From Verif Require Import CacheAbs CacheRefine CacheRefineH CacheMain CacheLib Props_String Props_Counter Props_Multi Props_Db Props_Hash Props_Hash2.
From Verif Require Import Props_Float Props_Multi Props_Hash Props_Hash2 Props_Exact2.

(** ** C120: a text that Get shows can be stored again exactly unless it is -0 *)
Theorem C120_exact_partial w t k v k' t1 w1 r t2 :
  reachable_typed w -> answer t (CGet k) w = ok_str v -> deadline w k' = None ->
  run_call t1 (CSet k' v) w = Done w1 r -> (answer t2 (CGet k') w1 = ok_str v <-> v <> bs "-0").
Proof.
  intros Hre Hg Hd E. split; [|intros Hz; exact (C120_copy_partial w t k v k' t1 w1 r t2 Hre Hg Hz Hd E)].
  intros Ha ->. apply kepts_reachable in Hre as [Hr _]. destruct (C02_stored_text w t1 k' _ w1 r t2 Hr Hd E) as [_ H]. rewrite H in Ha. vm_compute in Ha. discriminate.
Qed.
Example C120_exact_nonvacuous : reachable_typed demo /\
  replies [(9, CSet (bs "x") (bs "-0.0")); (9, CGet (bs "x")); (9, CSet (bs "y") (bs "-0")); (9, CGet (bs "y"))] demo = Some [RStr (bs "OK", None); RStr (bs "-0", None); RStr (bs "OK", None); RStr (bs "0", None)].
Proof. split; [apply C120_nonvacuous|vm_compute; reflexivity]. Qed.
Print Assumptions C120_exact_partial.

(** ** C22: MSetNX stores all or nothing exactly when none or all of the keys are stored *)
Theorem C22_exact_partial w t kv w1 r : ready w -> NoDup (map fst kv) -> run_call t (CMSetNX kv) w = Done w1 r ->
  (r = RInt (zlen kv, None) \/ r = RInt (0, None)) <-> ((forall k, k ∈ map fst kv -> stored w k = None) \/ (forall k, k ∈ map fst kv -> is_Some (stored w k))).
Proof.
  intros Hr Hd E. destruct (C22_msetnx_partial w t kv w1 r Hr Hd E) as [HA HB]. split.
  - intros Hrep. destruct (Forall_Exists_dec (fun p : gostr * gostr => stored w (fst p) = None) (fun p => decide (stored w (fst p) = None)) kv) as [Hall|Hex].
    { left. intros k Hk. apply elem_of_list_fmap in Hk as (p & -> & Hp). exact (proj1 (list.Forall_forall _ _) Hall p Hp). }
    destruct (Forall_Exists_dec (fun p : gostr * gostr => stored w (fst p) <> None) (fun p => decide (stored w (fst p) <> None)) kv) as [Hall|Hex'].
    { right. intros k Hk. apply elem_of_list_fmap in Hk as (p & -> & Hp). pose proof (proj1 (list.Forall_forall _ _) Hall p Hp) as H. cbn in H. destruct (stored w (fst p)); [eauto|congruence]. }
    exfalso. apply list.Exists_exists in Hex as ([k1 v1] & H1 & N1). apply list.Exists_exists in Hex' as ([k2 v2] & H2 & N2). cbn in N1, N2.
    destruct (C22_mixed_refuted w t kv w1 r Hr Hd E) as (n & -> & Hn).
    + exists k2, v2. split; [exact H2|]. destruct (stored w k2); [exfalso; apply N2; discriminate|reflexivity].
    + exists k1, v1. split; [exact H1|]. destruct (stored w k1); [eauto|congruence].
    + destruct Hrep as [Hrep|Hrep]; injection Hrep as ->; lia.
  - intros [H|H]; [left; apply (HA H)|right; apply (HB H)].
Qed.
Example C22_exact_nonvacuous : ready demo /\ NoDup (map fst [(bs "n", bs "1"); (bs "zz", bs "2")]) /\ exists w1, run_call 9 (CMSetNX [(bs "n", bs "1"); (bs "zz", bs "2")]) demo = Done w1 (RInt (1, None)) \/ run_call 9 (CMSetNX [(bs "n", bs "1"); (bs "zz", bs "2")]) demo = Done w1 (RInt (2, None)).
Proof.
  split; [apply demo_ready|]. split.
  - repeat constructor; vm_compute; [|intros H; inversion H]. intros H. inversion H as [|? ? ? H1]; subst. inversion H1.
  - destruct (run_call 9 (CMSetNX [(bs "n", bs "1"); (bs "zz", bs "2")]) demo) as [w1 r| |] eqn:E; [|exfalso; vm_compute in E; discriminate..]. exists w1.
    assert (H : answer 9 (CMSetNX [(bs "n", bs "1"); (bs "zz", bs "2")]) demo = Some r) by (unfold answer; rewrite E; reflexivity). vm_compute in H. injection H as <-. auto.
Qed.
Print Assumptions C22_exact_partial.

(** ** C166: after an HSetNX that stores, HGet shows what it shows after HSet exactly when the text is one that HSet keeps *)
Theorem C166_hget_exact_partial w t k f v w1 r1 w2 r2 t' : ready w -> hash_or_absent w k -> ~ past w k t -> ~ past w k t' -> has_field t w k f = false ->
  run_call t (CHSetNX k f v) w = Done w1 r1 -> run_call t (CHSet k f v) w = Done w2 r2 ->
  r1 = r2 /\ (answer t' (CHGet k f) w1 = answer t' (CHGet k f) w2 <-> text v = v).
Proof.
  intros Hr Hh Hp Hp' Hf E1 E2.
  destruct (C40_hsetnx w t k f v Hr Hh Hp) as (x1 & n & F1 & H1). rewrite Hf in H1. destruct H1 as [-> H1]. rewrite E1 in F1. injection F1 as -> ->.
  destruct (C34_hset w t k f v Hr Hh Hp) as (x2 & F2 & H2). rewrite Hf in F2. rewrite E2 in F2. injection F2 as -> ->.
  split; [reflexivity|]. destruct (H1 t' Hp') as [-> _]. destruct (H2 t' Hp') as [-> _]. unfold ok_str. split; [intros [= <-]; congruence|intros ->; reflexivity].
Qed.
Example C166_hget_exact_nonvacuous : text (bs "007") = bs "7" /\ text (bs "abc") = bs "abc" /\ has_field 9 demo (bs "h") (bs "zz") = false.
Proof. vm_compute. auto. Qed.
Print Assumptions C166_hget_exact_partial.
