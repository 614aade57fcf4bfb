(** * Props_Iff2: Type, counting past a deadline, and HDel of every field: exactly when they do what is expected *)
From Verif Require Import Base GoFloat CacheModel CacheSpec.
From Verif Require Import CacheAbs CacheRefine CacheRefineH CacheMain CacheLib Props_String Props_String2 Props_Counter Props_Db Props_Multi Props_Hash Props_Hash2 Props_Exact Props_Exact2.

(** ** C27: Type is right exactly when the key is not a hash that can be read *)
Definition right_type (t : Z) (w : world) (k : gostr) : gostr :=
  if readable t w k then match stored w k with Some (VHash _) => bs "hash" | _ => bs "string" end else bs "none".
Theorem C27_exact_partial w t k : ready w ->
  (answer t (CType k) w = ok_str (right_type t w k) <-> ~ (readable t w k = true /\ exists l, stored w k = Some (VHash l))).
Proof.
  intros Hr. rewrite (C27_type_partial w t k Hr). unfold right_type. destruct (readable t w k).
  - destruct (stored w k) as [[]|]; try (split; [intros _ (_ & l' & [=])|reflexivity]).
    split; [intros H; vm_compute in H; discriminate|intros H; exfalso; apply H; eauto].
  - split; [intros _ ([=] & _)|reflexivity].
Qed.
Example C27_exact_nonvacuous : ready demo /\ right_type 9 demo (bs "h") = bs "hash" /\ right_type 9 demo (bs "a") = bs "string" /\ right_type 9 demo (bs "zz") = bs "none" /\
  answer 9 (CType (bs "h")) demo = ok_str (bs "string") /\ answer 9 (CType (bs "a")) demo = ok_str (bs "string").
Proof. split; [apply demo_ready|]. vm_compute. auto 10. Qed.
Print Assumptions C27_exact_partial.

(** ** C20: what a counter call answers is what Get shows at [t'] exactly when the deadline the key had is not past then *)
Theorem C20_exact_partial w t k n c d w1 r t' : ready w -> counter w k n -> delta k c = Some d -> run_call t c w = Done w1 r ->
  r = RInt (wrap64 (n + d), None) /\ (answer t' (CGet k) w1 = ok_str (itoa (wrap64 (n + d))) <-> ~ past w k t').
Proof.
  intros Hr Hs Hc E1.
  assert (Hx : exists c', r = RInt (wrap64 (n + d), None) /\ fmt_cret c' = (itoa (wrap64 (n + d)), None) /\ view w1 k = (Some c', deadline w k) /\ ready w1).
  { pose proof (view_counter w k n Hr Hs) as Hv. pose proof (view_dl w k Hr) as Hdl. rewrite <- Hdl.
    destruct c; cbn in Hc; try discriminate; destruct (decide _) as [->|]; try discriminate; injection Hc as <-;
    destruct (run_single _ k _ _ _ _ Hr E1 eq_refl) as (Ha & Hr1 & _); cbn [abs1] in Ha; destruct (view w k) as [c e]; cbn [fst snd] in *;
    destruct Hv as [-> | ->]; unfold a_incr, wr in Ha; cbn in Ha; rewrite ?wrap64_add_r in Ha; injection Ha as Hv <-; eexists; (split; [reflexivity|split; [|split; [symmetry; exact Hv|exact Hr1]]]); reflexivity. }
  destruct Hx as (c' & -> & Hf & Hv & Hr1). split; [reflexivity|].
  rewrite (answer_single (CGet k) k t' w1) by auto. cbn [abs1]. rewrite Hv. unfold past. destruct (deadline w k) as [dl|]; cbn [purge].
  - destruct (Z.ltb_spec dl t').
    + split; [discriminate|intros H'; exfalso; apply H'; eauto].
    + cbn [fst]. rewrite Hf. split; [intros _ (? & E & ?); injection E as <-; lia|reflexivity].
  - cbn [fst]. rewrite Hf. split; [intros _ (? & E & ?); discriminate|reflexivity].
Qed.
Example C20_exact_nonvacuous : ready demo /\ counter demo (bs "n") 41 /\ delta (bs "n") (CDecrBy (bs "n") 2) = Some (-2) /\
  replies [(9, CDecrBy (bs "n") 2); (9, CGet (bs "n"))] demo = Some [RInt (39, None); RStr (bs "39", None)] /\
  replies [(1, CSetEX (bs "c") (bs "5") 1); (2000000000, CIncr (bs "c")); (2000000000, CGet (bs "c"))] (new_world 0) = Some [RStr (bs "OK", None); RInt (6, None); RStr ([], Some ErrKeyNil)].
Proof. split; [apply demo_ready|]. split; [left; vm_compute; reflexivity|]. vm_compute. auto. Qed.
Print Assumptions C20_exact_partial.

(** ** C38: after HDel, Exists says that the key is gone exactly when it was not stored before *)
Theorem C38_exact_partial w t k fs w1 r t' : ready w -> hash_or_absent w k -> ~ past w k t -> ~ past w k t' -> run_call t (CHDel k fs) w = Done w1 r ->
  (answer t' (CExists [k]) w1 = ok_int 0 <-> stored w k = None).
Proof.
  intros Hr Hh Hp Hp' E. split.
  - intros Ha. destruct (stored w k) as [x|] eqn:Es; [|reflexivity]. exfalso. destruct Hh as [Hh|[l Hh]]; [congruence|].
    destruct (C38_every_hash_refuted w t k l fs w1 r t' Hr Hh Hp E Hp') as [H _]. rewrite Ha in H. vm_compute in H. discriminate.
  - intros Hn. pose proof (view_stored w k Hr) as Hs. destruct (fst (view w k)) as [c|] eqn:Ec.
    { exfalso. destruct c; [destruct Hs as [Hs _]|destruct Hs as [[? Hs] _]]; rewrite Hn in Hs; discriminate. }
    destruct (run_single _ k _ _ _ _ Hr E eq_refl) as (Ha & Hr1 & _). cbn [abs1] in Ha. rewrite purge_not_past in Ha by auto.
    unfold wr, a_hread in Ha. rewrite Ec in Ha. injection Ha as Hv _.
    unfold answer. destruct (run_intro (CExists [k]) t' w1 _ _ Hr1 eq_refl) as (w2 & -> & _). cbn [a_exists]. rewrite <- Hv, Ec. reflexivity.
Qed.
Example C38_exact_nonvacuous : hash_or_absent demo (bs "zz") /\ hash_or_absent demo (bs "h") /\
  replies [(9, CHDel (bs "zz") [bs "f"]); (9, CExists [bs "zz"]); (9, CHDel (bs "h") [bs "f"]); (9, CHLen (bs "h")); (9, CExists [bs "h"])] demo =
    Some [RInt (0, None); RInt (0, None); RInt (1, None); RInt (0, None); RInt (1, None)].
Proof. split; [left; vm_compute; reflexivity|]. split; [right; eexists; vm_compute; reflexivity|]. vm_compute. reflexivity. Qed.
Print Assumptions C38_exact_partial.
